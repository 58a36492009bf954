(** The ready-made algorithms and CollectorGA (binary_ga.py, combinatory_ga.py,
    categorical_ga.py, vega.py, ffga.py, collector_ga.py). *)
From Coq Require Import ZArith List Bool String Lia.
From Verif Require Import Num State Binary Population GaData Crossover Mutation Selection Penalty
  Fitness NewGeneration.
Import ListNotations.
Open Scope string_scope.
Open Scope list_scope.
Open Scope Z_scope.

Section Driver.
  Context {NO : NumOps}.

  (** The components of one algorithm; the mutation object changes when a string
      level is resolved. *)
  Record comps := mkComps {
    c_fitness : fitness;
    c_selection : selection;
    c_crossover : crossover_kind;
    c_mutation : mutation;
    c_newgen : newgen
  }.
  Definition set_mutation m c := mkComps (c_fitness c) (c_selection c) (c_crossover c) m (c_newgen c).

  (** The body of the main loop: binary_ga.py:94-99, collector_ga.py:72-77 (the same
      in combinatory_ga.py, categorical_ga.py, vega.py, ffga.py). *)
  Definition ga_step (fuel : nat) (c : comps) (gd : gadata) : M (comps * gadata) :=
    gd1 <- selection_execute fuel (c_selection c) gd ;;
    gd2 <- crossover_execute (c_crossover c) gd1 ;;
    m' <- mutation_execute (c_mutation c) gd2 ;;
    gd3 <- newgen_execute (c_newgen c) gd2 ;;
    fitness_execute (c_fitness c) gd3 ;;;
    gd4 <- update gd3 ;;
    ret (set_mutation m' c, gd4).

  (** binary_ga.py:101: num_generation_no_improve > early_stop; TypeError for None. *)
  Definition should_stop (gd : gadata) : M bool :=
    match early_stop gd with
    | None => raise TypeError
    | Some e => ret (e <? no_improve gd)
    end.

  (** binary_ga.py:92-102: for i in range(1, num_generations) with the break; [k] is
      the number of iterations left. *)
  Fixpoint ga_loop (fuel : nat) (k : nat) (c : comps) (gd : gadata) : M (comps * gadata) :=
    match k with
    | O => ret (c, gd)
    | S k' =>
        r <- ga_step fuel c gd ;;
        stop <- should_stop (snd r) ;;
        if stop : bool then ret r else ga_loop fuel k' (fst r) (snd r)
    end.

  (** collector_ga.py:62-80 without the printing; binary_ga.py:89-102. *)
  Definition run_loop (fuel : nat) (c : comps) (gd : gadata) : M (comps * gadata) :=
    fitness_execute (c_fitness c) gd ;;;
    gd1 <- update gd ;;
    ga_loop fuel (Z.to_nat (num_generations gd1 - 1)) c gd1.

  (** collector_ga.py:36-60 set_population *)
  Definition collector_set_population (multi : bool) (n num_gen : Z) (g : gspec)
             (inp : list (list gv)) (cp : num) (es : option Z) : M gadata :=
    do_seed ;;;
    p <- lift (set_params n g inp) ;;
    p' <- fill p ;;
    ret (new_gadata multi num_gen cp es p').
  (** collector_ga.py:62-80 optimize *)
  Definition collector_optimize (fuel : nat) (c : comps) (gd : gadata) : M (comps * gadata) :=
    r <- run_loop fuel c gd ;;
    print_best_solution (snd r) ;;;
    ret r.

  (** The constructor arguments shared by the ready-made classes. *)
  Record config := mkCfg {
    cf_num_generations : Z;
    cf_num_individ : Z;
    cf_objective : objfun;
    cf_obj_value : obj_target;
    cf_input_data : option pyobj;
    cf_penalty : penalty_arg;
    cf_conditions : option (list string);
    cf_children_percent : num;
    cf_early_stop : option Z;
    cf_input_population : list (list gv);
    cf_tournament_size : Z;
    cf_mutation_lvl : lvl;
    cf_transfer : string;
    cf_is_print : bool
  }.
  (** binary_ga.py:58: early_stop if early_stop is not None else num_generations *)
  Definition resolved_stop (cf : config) : option Z :=
    match cf_early_stop cf with Some e => Some e | None => Some (cf_num_generations cf) end.

  (** optimize of the ready-made classes: binary_ga.py:65-106,
      combinatory_ga.py:63-100, categorical_ga.py:67-105, vega.py:66-109,
      ffga.py:65-109.  [fk], [sel], [ck], [mk_mut], [ngm], [multi] are the component
      choices of the class.  Returns the ga_data and the caller's conditions list
      after the call. *)
  Definition ga_optimize (fuel : nat) (cf : config) (multi : bool) (g : gspec) (fk : fitness_kind)
             (sel : selection) (ck : crossover_kind) (mk_mut : lvl -> exn + mutation) (ngm : bool)
    : M (gadata * option (list string)) :=
    do_seed ;;;
    p <- lift (set_params (cf_num_individ cf) g (cf_input_population cf)) ;;
    fc <- lift (new_fitness fk (cf_objective cf) (cf_obj_value cf) (cf_input_data cf)
                            (cf_penalty cf) (cf_conditions cf)) ;;
    m <- lift (mk_mut (cf_mutation_lvl cf)) ;;
    ng <- lift (new_newgen ngm (cf_transfer cf)) ;;
    p' <- fill p ;;
    let gd := new_gadata multi (cf_num_generations cf) (cf_children_percent cf) (resolved_stop cf) p' in
    r <- run_loop fuel (mkComps (fst fc) sel ck m ng) gd ;;
    (if cf_is_print cf then print_best_solution (snd r) else ret tt) ;;;
    ret (snd r, snd fc).

  (** binary_ga.py:65-106 *)
  Definition binary_ga (fuel : nat) (cf : config) (is_gray : bool) (gens : list bgene) :=
    ga_optimize fuel cf false (GenBinary is_gray gens bparams0) Hyperbola
                (SelTournament (cf_tournament_size cf)) OnePoint new_bin false.
  (** combinatory_ga.py:63-100 *)
  Definition combinatory_ga (fuel : nat) (cf : config) (a b k : Z) :=
    ga_optimize fuel cf false (GenOrd a b k) Hyperbola
                (SelTournament (cf_tournament_size cf)) Order (new_combi Movement) false.
  (** categorical_ga.py:67-105 *)
  Definition categorical_ga (fuel : nat) (cf : config) (gens : list cgen) :=
    ga_optimize fuel cf false (GenCat gens) Hyperbola
                (SelTournament (cf_tournament_size cf)) Uniform new_cat false.
  (** vega.py:66-109: the number of objectives is the length of the result on a list
      of zeros when there are no conditions (lines 72-73), and the tournament size is
      always 3 (line 86). *)
  Definition count_optimize (l : list string) : Z :=
    Z.of_nat (List.length (filter (fun a => String.eqb a "optimize") l)).
  Definition vega (fuel : nat) (cf : config) (is_gray : bool) (gens : list bgene) :=
    m <- match cf_conditions cf with
         | Some l => ret (count_optimize l)
         | None =>
             v <- call_list (cf_objective cf) (map (fun _ => GInt 0) gens) ;;
             ret (Z.of_nat (List.length v))
         end ;;
    ga_optimize fuel cf true (GenBinary is_gray gens bparams0) VegaHyperbola
                (SelVegaTournament m 3) OnePoint new_bin false.
  (** ffga.py:65-109 *)
  Definition ffga (fuel : nat) (cf : config) (is_gray : bool) (gens : list bgene) :=
    ga_optimize fuel cf true (GenBinary is_gray gens bparams0) Ffga
                SelBalanced OnePoint new_bin true.
End Driver.
