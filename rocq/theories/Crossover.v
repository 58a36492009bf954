(** Crossovers (ga/crossovers/). *)
From Coq Require Import ZArith List Bool String Lia.
From Verif Require Import Num State Binary Population GaData.
Import ListNotations.
Open Scope Z_scope.

Inductive crossover_kind := OnePoint | TwoPoint | Uniform | Order.

Section Crossover.
  Context {NO : NumOps}.

  (** one_point_crossover.py:20-24: the genotypes given to child_1 and child_2. *)
  Definition one_point (len_individ : Z) (p1 p2 : list gv) : M (list gv * list gv) :=
    idx_point <- randint 1 (len_individ - 1) ;;
    ret (slice_to p1 idx_point ++ slice_from p2 idx_point,
         slice_to p2 idx_point ++ slice_from p1 idx_point).

  (** sample(range(1, len), 2) followed by sort: two_point_crossover.py:21-22,
      order_crossover.py:20-28. *)
  Definition get_idx_segment (len_individ : Z) : M (Z * Z) :=
    s <- sample (zrange 1 len_individ) 2 ;;
    match s with
    | [a; b] => ret (if b <? a then (b, a) else (a, b))
    | _ => raise Unmodelled
    end.

  (** two_point_crossover.py:20-27 *)
  Definition two_point (len_individ : Z) (p1 p2 : list gv) : M (list gv * list gv) :=
    s <- get_idx_segment len_individ ;;
    let '(a, b) := s in
    ret (slice_to p1 a ++ slice p2 a b ++ slice_from p1 b,
         slice_to p2 a ++ slice p1 a b ++ slice_from p2 b).

  (** uniform_crossover.py:20-32; both children share one list (only one child is
      ever kept). *)
  Definition uniform_gene (p1 p2 : list gv) (i : Z) : M gv :=
    coin <- randint 1 2 ;;
    lift_opt IndexError (py_nth (if coin =? 1 then p1 else p2) i).
  Definition uniform (len_individ : Z) (p1 p2 : list gv) : M (list gv * list gv) :=
    new_gens <- mmap (uniform_gene p1 p2) (zrange 0 len_individ) ;;
    ret (new_gens, new_gens).

  (** x not in segment *)
  Fixpoint gv_mem (x : gv) (l : list gv) : bool :=
    match l with [] => false | y :: l' => gv_eqb x y || gv_mem x l' end.
  (** order_crossover.py:35-37: the child built from the segment of [p1]. *)
  Definition order_child (len_individ a b : Z) (p1 p2 : list gv) : list gv :=
    let right_side := len_individ - b in
    let left_side := a in
    let segment := slice p1 a b in
    let new_gens := filter (fun x => negb (gv_mem x segment)) p2 in
    slice new_gens right_side (right_side + left_side) ++ segment ++ slice_to new_gens right_side.
  (** order_crossover.py:30-43 *)
  Definition order (len_individ : Z) (p1 p2 : list gv) : M (list gv * list gv) :=
    s <- get_idx_segment len_individ ;;
    let '(a, b) := s in
    ret (order_child len_individ a b p1 p2, order_child len_individ a b p2 p1).

  Definition crossover (k : crossover_kind) (len_individ : Z) (p1 p2 : list gv) : M (list gv * list gv) :=
    match k with
    | OnePoint => one_point len_individ p1 p2
    | TwoPoint => two_point len_individ p1 p2
    | Uniform => uniform len_individ p1 p2
    | Order => order len_individ p1 p2
    end.

  (** base_crossover.py:29-51 get_children with num_offsprings = 1 (line 15; no code
      changes it).  The child that is not returned is garbage and is not allocated. *)
  Definition get_child (k : crossover_kind) (len_individ : Z) (first : nat) (p1 p2 : list gv) : M nat :=
    i0 <- get first ;;
    gs <- crossover k len_individ p1 p2 ;;
    coin <- randint 1 2 ;;
    alloc (set_genotype (if coin =? 1 then fst gs else snd gs) (empty_like i0)).

  (** base_crossover.py:61-66: pairs of parents in order. *)
  Fixpoint cross_pairs (k : crossover_kind) (len_individ : Z) (first : nat) (l : list nat) : M (list nat) :=
    match l with
    | [] => ret []
    | [_] => raise IndexError
    | a :: b :: l' =>
        ia <- get a ;;
        ib <- get b ;;
        c <- get_child k len_individ first (genotype ia) (genotype ib) ;;
        cs <- cross_pairs k len_individ first l' ;;
        ret (c :: cs)
    end.

  (** execute of the four classes (one_point_crossover.py:26-34, ...) and
      base_crossover.py:53-66. *)
  Definition crossover_execute (k : crossover_kind) (gd : gadata) : M gadata :=
    match members (population gd) with
    | [] => raise IndexError
    | first :: _ =>
        i0 <- get first ;;
        let len_individ := Z.of_nat (List.length (genotype i0)) in
        get_empty_copy ;;;
        cs <- cross_pairs k len_individ first (parents gd) ;;
        ret (set_children cs gd)
    end.
End Crossover.
