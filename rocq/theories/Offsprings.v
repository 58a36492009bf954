(** Crossovers whose attribute num_offsprings was set to another value than 1
    (ga/crossovers/base_crossover.py:15,50-51).  The attribute is public and no code of the
    package sets it. *)
From Coq Require Import ZArith List.
From Verif Require Import Num State Binary Population GaData Crossover Mutation.
Import ListNotations.
Open Scope Z_scope.

Section Offsprings.
  Context {NO : NumOps}.
  (** base_crossover.py:29-51 get_children, the else branch: both children, no coin.
      The two children of a uniform crossover hold one and the same list in Python
      (uniform_crossover.py:29-30); here they hold equal lists, and the mutation of such
      children is mutation_execute_shared below. *)
  Definition get_children_both (k : crossover_kind) (len_individ : Z) (first : nat) (p1 p2 : list gv) : M (nat * nat) :=
    i0 <- get first ;;
    gs <- crossover k len_individ p1 p2 ;;
    c1 <- alloc (set_genotype (fst gs) (empty_like i0)) ;;
    c2 <- alloc (set_genotype (snd gs) (empty_like i0)) ;;
    ret (c1, c2).
  (** base_crossover.py:61-66 *)
  Fixpoint cross_pairs_both (k : crossover_kind) (len_individ : Z) (first : nat) (l : list nat) : M (list nat) :=
    match l with
    | [] => ret []
    | [_] => raise IndexError
    | a :: b :: l' =>
        ia <- get a ;;
        ib <- get b ;;
        c <- get_children_both k len_individ first (genotype ia) (genotype ib) ;;
        cs <- cross_pairs_both k len_individ first l' ;;
        ret (fst c :: snd c :: cs)
    end.
  (** base_crossover.py:53-66 execute, with the execute of the four classes. *)
  Definition crossover_execute_both (k : crossover_kind) (gd : gadata) : M gadata :=
    match members (population gd) with
    | [] => raise IndexError
    | first :: _ =>
        i0 <- get first ;;
        let len_individ := Z.of_nat (List.length (genotype i0)) in
        get_empty_copy ;;;
        cs <- cross_pairs_both k len_individ first (parents gd) ;;
        ret (set_children cs gd)
    end.

  (** *** Mutation of children that share their list two by two

      The children 2i and 2i+1 made by a uniform crossover with num_offsprings other than 1
      have the same list under the key genotype (uniform_crossover.py:29-30).  A mutation
      that assigns to the elements of child['genotype'] or pops, inserts and deletes them
      (bin_string_mutation.py:71-77, categorical_mutation.py:72-85, movement_mutation.py:19-20,
      swap_mutation.py:20-21, shift_mutation.py:24-27) changes it for both children. *)
  Definition mutate_shared (f : list gv -> M (list gv)) (r twin : nat) : M unit :=
    i <- get r ;;
    g <- f (genotype i) ;;
    modify r (set_genotype g) ;;;
    modify twin (set_genotype g).
  (** base_combinatory_mutation.py:66-76 for one such child *)
  Definition combi_shared (k : combi_kind) (level : num) (r twin : nat) : M unit :=
    b <- determines_mutation level ;;
    if b : bool then mutate_shared (combi_mutation k) r twin else ret tt.
  (** The loop over ga_data.children, each child with the child it shares its list with.
      A list of odd length does not occur; its last child is taken to share with nobody. *)
  Fixpoint iter_shared (f : nat -> nat -> M unit) (l : list nat) : M unit :=
    match l with
    | [] => ret tt
    | [a] => f a a
    | a :: b :: l' => f a b ;;; f b a ;;; iter_shared f l'
    end.
  (** execute of the mutations: base_combinatory_mutation.py:66-76, bin_string_mutation.py:79-88,
      categorical_mutation.py:87-95.  InversionMutation gives the child a new list
      (inversion_mutation.py:27) and leaves the list of the other child alone. *)
  Definition mutation_execute_shared (m : mutation) (gd : gadata) : M mutation :=
    match m with
    | MutCombi Inversion level => miter (combi_child Inversion level) (children gd) ;;; ret m
    | MutCombi k level => iter_shared (combi_shared k level) (children gd) ;;; ret m
    | MutBin l =>
        match gspec_of (population gd) with
        | GenBinary _ _ bp =>
            level <- lift (update_level l (last (idx_bits bp) 0)) ;;
            iter_shared (mutate_shared (bin_mutation level)) (children gd) ;;;
            ret (MutBin (LFloat level))
        | _ => raise AttributeError
        end
    | MutCat level =>
        match gspec_of (population gd) with
        | GenCat pools =>
            iter_shared (mutate_shared (cat_mutation level pools)) (children gd) ;;; ret m
        | GenOrd _ _ _ =>
            iter_shared (mutate_shared (cat_mutation level [COther; COther; COther])) (children gd) ;;; ret m
        | GenBinary _ gens _ =>
            iter_shared (mutate_shared (cat_mutation level (map (fun _ => COther) gens))) (children gd) ;;; ret m
        end
    end.
  (** One crossover and one mutation, as one generation runs them
      (collector_ga.py:73-74, where the caller supplies the crossover object). *)
  Definition offspring_generation (m : mutation) (gd : gadata) : M (mutation * gadata) :=
    gd1 <- crossover_execute_both Uniform gd ;;
    m1 <- mutation_execute_shared m gd1 ;;
    ret (m1, gd1).
End Offsprings.
