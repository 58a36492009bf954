(** GaData and MultiGaData (ga/ga_data.py, ga/multi_ga_data.py). *)
From Coq Require Import ZArith List Bool String Lia.
From Verif Require Import Num State Binary Population.
Import ListNotations.
Open Scope Z_scope.

Section GaData.
  Context {NO : NumOps}.

  (** best_solution: None, a copied individual with its idx_generation
      (ga_data.py:75-81), or the dict of multi_ga_data.py:53-58 holding copies of the
      Pareto set and, once set, idx_generation. *)
  Inductive best_sol :=
  | BNone
  | BSingle (i : individ) (gen : Z)
  | BPareto (set : list individ) (gen : option Z).

  (** The attributes of GaData / MultiGaData.  [hist_pareto] is historical_best of
      the multi-objective class (lists of live references), [hist_best] that of the
      single-objective one. *)
  Record gadata := mkGD {
    is_multi : bool;
    idx_generation : Z;
    no_improve : Z;
    population : pop;
    parents : list nat;
    children : list nat;
    hist_best : list sval;
    hist_mediocre : list sval;
    hist_worst : list sval;
    hist_pareto : list (list nat);
    best_solution : best_sol;
    num_generations : Z;
    early_stop : option Z;
    children_percent : num
  }.
  Definition set_population p gd := mkGD (is_multi gd) (idx_generation gd) (no_improve gd) p (parents gd) (children gd) (hist_best gd) (hist_mediocre gd) (hist_worst gd) (hist_pareto gd) (best_solution gd) (num_generations gd) (early_stop gd) (children_percent gd).
  Definition set_parents l gd := mkGD (is_multi gd) (idx_generation gd) (no_improve gd) (population gd) l (children gd) (hist_best gd) (hist_mediocre gd) (hist_worst gd) (hist_pareto gd) (best_solution gd) (num_generations gd) (early_stop gd) (children_percent gd).
  Definition set_children l gd := mkGD (is_multi gd) (idx_generation gd) (no_improve gd) (population gd) (parents gd) l (hist_best gd) (hist_mediocre gd) (hist_worst gd) (hist_pareto gd) (best_solution gd) (num_generations gd) (early_stop gd) (children_percent gd).

  (** ga_data.py:24-48, multi_ga_data.py:11-20 (the population is assigned later by
      every caller).  Simplification: parents and children, None until the first
      selection, start as []; only a VEGA balanced or ranked selection with
      num_objectives <= 0 would meet the None (TypeError in the crossover). *)
  Definition new_gadata (multi : bool) (num_gen : Z) (cp : num) (es : option Z) (p : pop) : gadata :=
    mkGD multi 0 0 p [] [] [] [] [] [] BNone num_gen es cp.

  (** ga_data.py:50-60, multi_ga_data.py:22-32 get_avg_score: TypeError when a score is
      None or a list, ZeroDivisionError on an empty population. *)
  Definition scalar_score (r : nat) : M num :=
    i <- get r ;;
    match score i with SV1 x => ret x | _ => raise TypeError end.
  Definition get_avg_score (gd : gadata) : M num :=
    let l := members (population gd) in
    xs <- mmap scalar_score l ;;
    lift (py_div (nsum xs) (nofZ (Z.of_nat (List.length l)))).

  Definition pop_at (l : list nat) (i : Z) : M individ :=
    r <- lift_opt IndexError (py_nth l i) ;; get r.

  (** v < w, TypeError when not comparable. *)
  Definition m_ltb (v w : sval) : M bool := lift_opt TypeError (sv_ltb v w).

  (** ga_data.py:62-86 update.  int(len/2) is exact for any list that fits in memory. *)
  Definition update_single (gd : gadata) : M gadata :=
    let p := population gd in
    l <- (if is_sorted p then ret (members p) else sort_by_dict KScore (members p)) ;;
    let p' := set_sorted true (set_members l p) in
    b <- pop_at l (-1) ;;
    md <- pop_at l (Z.of_nat (List.length l) / 2) ;;
    w <- pop_at l 0 ;;
    r <- match best_solution gd with
         | BNone => ret (BSingle b (idx_generation gd), no_improve gd)
         | BSingle i g =>
             lt <- m_ltb (score i) (score b) ;;
             ret (if lt : bool then (BSingle b (idx_generation gd), 0)
                  else (BSingle i g, no_improve gd + 1))
         | BPareto _ _ => raise KeyError
         end ;;
    ret (mkGD (is_multi gd) (idx_generation gd + 1) (snd r) p' (parents gd) (children gd)
              (hist_best gd ++ [score b]) (hist_mediocre gd ++ [score md])
              (hist_worst gd ++ [score w]) (hist_pareto gd) (fst r)
              (num_generations gd) (early_stop gd) (children_percent gd)).

  (** rank == 1; KeyError when the key is missing. *)
  Definition rank_is_1 (r : nat) : M bool :=
    i <- get r ;;
    v <- lift_opt KeyError (rank i) ;;
    ret (sv_eqb v (SV1 none_)).
  (** multi_ga_data.py:44-49, multi_new_generation.py:20-24: the longest prefix with
      rank 1. *)
  Fixpoint rank1_prefix (l : list nat) : M (list nat) :=
    match l with
    | [] => ret []
    | r :: l' =>
        b <- rank_is_1 r ;;
        if b : bool then (t <- rank1_prefix l' ;; ret (r :: t)) else ret []
    end.

  (** d1 == d2 on individuals (dicts), and on lists of them. *)
  Definition opt_eqb {A} (f : A -> A -> bool) (x y : option A) : bool :=
    match x, y with
    | None, None => true
    | Some a, Some b => f a b
    | _, _ => false
    end.
  Definition ind_eqb (x y : individ) : bool :=
    gvs_eqb (genotype x) (genotype y)
    && opt_eqb (opt_eqb gvs_eqb) (phenotype x) (phenotype y)
    && sv_eqb (score x) (score y) && sv_eqb (obj_score x) (obj_score y)
    && Bool.eqb (feasible x) (feasible y)
    && opt_eqb Z.eqb (idx_individ x) (idx_individ y)
    && opt_eqb sv_eqb (rank x) (rank y).
  Fixpoint inds_eqb (a b : list individ) : bool :=
    match a, b with
    | [], [] => true
    | x :: a', y :: b' => ind_eqb x y && inds_eqb a' b'
    | _, _ => false
    end.

  (** multi_ga_data.py:34-63 update; sorting on rank leaves is_sorted alone. *)
  Definition update_multi (gd : gadata) : M gadata :=
    let p := population gd in
    l <- (if is_sorted p then ret (members p) else sort_by_dict KRank (members p)) ;;
    let p' := set_members l p in
    refs <- rank1_prefix l ;;
    set <- mmap get refs ;;
    r <- match best_solution gd with
         | BNone => ret ([], None)
         | BPareto old g => ret (old, g)
         | BSingle _ _ => raise KeyError
         end ;;
    let '(old, g) := r in
    let best' := if inds_eqb old set then BPareto old g
                 else BPareto set (Some (idx_generation gd)) in
    let ni := if inds_eqb old set then no_improve gd + 1 else 0 in
    ret (mkGD (is_multi gd) (idx_generation gd + 1) ni p' (parents gd) (children gd)
              (hist_best gd) (hist_mediocre gd) (hist_worst gd) (hist_pareto gd ++ [refs]) best'
              (num_generations gd) (early_stop gd) (children_percent gd)).

  Definition update (gd : gadata) : M gadata :=
    if is_multi gd then update_multi gd else update_single gd.

  (** print_best_solution (ga_data.py:88-102, multi_ga_data.py:65-85): here only the
      exceptions it can raise; the printed lines are in Report.v. *)
  Definition print_best_solution (gd : gadata) : M unit :=
    match best_solution gd with
    | BNone => raise TypeError
    | BSingle _ _ => ret tt
    | BPareto set None => raise KeyError
    | BPareto set (Some _) =>
        miter (fun i => match phenotype i with None => raise KeyError | Some _ => ret tt end) set
    end.
End GaData.
