(** NewGeneration and MultiNewGeneration (ga/new_generation.py,
    ga/multi_new_generation.py). *)
From Coq Require Import ZArith List Bool String Lia.
From Verif Require Import Num State Binary Population GaData.
Import ListNotations.
Open Scope string_scope.
Open Scope list_scope.
Open Scope Z_scope.

Inductive transfer := TBest | TRandom.
(** A generation-replacement object: its class and its strategy. *)
Record newgen := mkNG { ng_multi : bool; ng_transfer : transfer }.

(** new_generation.py:10-28 *)
Definition new_newgen (multi : bool) (s : string) : exn + newgen :=
  if String.eqb s "best" then inr (mkNG multi TBest)
  else if String.eqb s "random" then inr (mkNG multi TRandom)
  else inl (PyException "transfer_parents").

Section NewGeneration.
  Context {NO : NumOps}.

  (** new_generation.py:44-51: the first i (from the end) that has an equal genotype
      further left, and the nearest such j; the position -i-j is returned counted from
      the end (1 = last).  On the reversed list: the first position whose genotype
      occurs later, and its first later occurrence. *)
  Fixpoint first_equal (g : list gv) (l : list (list gv)) (pos : nat) : option nat :=
    match l with
    | [] => None
    | h :: l' => if gvs_eqb g h then Some pos else first_equal g l' (S pos)
    end.
  Fixpoint first_duplicate (l : list (list gv)) (pos : nat) : option nat :=
    match l with
    | [] => None
    | g :: l' => match first_equal g l' (S pos) with
                 | Some p => Some p
                 | None => first_duplicate l' (S pos)
                 end
    end.
  (** del elites[-i - j] at the position found, if any. *)
  Definition delete_duplicate (elites : list nat) (gs : list (list gv)) : list nat :=
    match first_duplicate (rev gs) 0 with
    | None => elites
    | Some p => remove_at (List.length elites - 1 - p) elites
    end.

  (** new_generation.py:30-62 add_best.  The while loop carries z_counter and
      loop_counter as in the source; the fuel len(children) + 1 covers the bound of
      line 59 (see add_best_fuel in the proofs: the loop in fact stops in its first
      iteration). *)
  Fixpoint add_best_loop (fuel : nat) (l : list nat) (num_elites nchildren : Z)
           (loop_counter z_counter : Z) (elites : list nat) : M (list nat) :=
    match fuel with
    | O => nofuel
    | S f =>
        gs <- genotypes elites ;;
        if negb (has_dup gs) then ret elites
        else
          let elites1 := delete_duplicate elites gs in
          let z_counter := z_counter + 1 in
          if (- num_elites - 1 - z_counter <? 0) then
            smp <- sample l (num_elites + 1 - Z.of_nat (List.length elites1)) ;;
            ret (smp ++ elites1)
          else
            r <- lift_opt IndexError (py_nth l (- num_elites - 1 - z_counter)) ;;
            let elites2 := r :: elites1 in
            let loop_counter := loop_counter + 1 in
            if nchildren <=? loop_counter then ret elites2
            else add_best_loop f l num_elites nchildren loop_counter z_counter elites2
    end.
  Definition add_best (l : list nat) (num_elites nchildren : Z) : M (list nat) :=
    add_best_loop (S (Z.to_nat nchildren)) l num_elites nchildren 0 0
                  (slice_from l (- num_elites - 1)).

  (** new_generation.py:75-81: sampling again while there are duplicates. *)
  Fixpoint add_random_loop (fuel : nat) (l : list nat) (num_elites nchildren loop_counter : Z)
           (elites : list nat) : M (list nat) :=
    match fuel with
    | O => nofuel
    | S f =>
        d <- is_duplicate elites ;;
        if negb d then ret elites
        else
          elites1 <- sample (slice_to l (-1)) num_elites ;;
          let loop_counter := loop_counter + 1 in
          if nchildren <=? loop_counter then ret elites1
          else add_random_loop f l num_elites nchildren loop_counter elites1
    end.
  Definition add_random (l : list nat) (num_elites nchildren : Z) : M (list nat) :=
    e <- sample (slice_to l (-1)) num_elites ;;
    e' <- add_random_loop (S (Z.to_nat nchildren)) l num_elites nchildren 0 e ;;
    last <- lift_opt IndexError (py_nth l (-1)) ;;
    ret (e' ++ [last]).

  (** new_generation.py:64-84 add_parents, with add_best of the class
      (multi_new_generation.py:10-26). *)
  Definition add_parents (ng : newgen) (l cs : list nat) (num_elites : Z) : M (list nat) :=
    let nchildren := Z.of_nat (List.length cs) in
    elites <- match ng_transfer ng with
              | TBest => if ng_multi ng then rank1_prefix l else add_best l num_elites nchildren
              | TRandom => add_random l num_elites nchildren
              end ;;
    ret (cs ++ elites).

  (** new_generation.py:86-104, multi_new_generation.py:28-45 execute.  The children
      take over the attributes of the population (the shared __dict__).  Afterwards
      ga_data.children and ga_data.population are one list object; the model's [children]
      keeps the order it has here, nothing reads it before the next crossover. *)
  Definition newgen_execute (ng : newgen) (gd : gadata) : M gadata :=
    let p := population gd in
    let cs := children gd in
    if ng_multi ng then
      (if is_phenotype (gspec_of p) then get_phenotype (gspec_of p) (members p) else ret tt) ;;;
      next <- add_parents ng (members p) cs 10 ;;
      ret (set_children next (set_population (set_sorted false (set_members next p)) gd))
    else
      l <- (if is_sorted p then ret (members p) else sort_by_dict KScore (members p)) ;;
      let num_elites := num_individ p - Z.of_nat (List.length cs) in
      next <- (if 0 <? num_elites then add_parents ng l cs num_elites
               else (last <- lift_opt IndexError (py_nth l (-1)) ;; ret (cs ++ [last]))) ;;
      ret (set_children next (set_population (set_sorted false (set_members next p)) gd)).
End NewGeneration.
