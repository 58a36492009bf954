(** What print_best_solution prints (ga/ga_data.py, ga/multi_ga_data.py). *)
From Coq Require Import ZArith List Bool.
From Verif Require Import Num State Binary Population GaData Driver.
Import ListNotations.
Open Scope Z_scope.

Section Report.
  Context {NO : NumOps}.

  (** The printed lines (ga_data.py:93-102, multi_ga_data.py:67-69 and 76-84).  The
      model keeps the printed value; how Python writes it as text is left out. *)
  Inductive line :=
  | Bar                                   (* '|' + '=' * 85 + '|' *)
  | IndexGeneration (z : Z)               (* 'Index generation: ' *)
  | BestSolution                          (* 'Best solution:' *)
  | BestIndex (z : Z)                     (* tab 'index generation: ' *)
  | PGenotype (genes : list gv)           (* tab 'genotype: ' *)
  | PPhenotype (ph : option (list gv))    (* tab 'phenotype: ', None for the value None *)
  | PScore (v : sval)                     (* tab 'fitness score: ' *)
  | PObjective (v : sval)                 (* tab 'objective score: ' *)
  | PFeasible (b : bool)                  (* tab 'feasible region: ' *)
  | HeadPhenotypes                        (* tab 'phenotypes:' *)
  | ElemPhenotype (ph : option (list gv)) (* two tabs, one phenotype *)
  | HeadObjectives                        (* tab 'objective scores:' *)
  | ElemObjective (v : sval).             (* two tabs, one list of objective scores *)

  (** The lines printed so far and the exception that ended the call, if any. *)
  Definition printed : Type := list line * option exn.
  Definition say (l : line) (p : printed) : printed := (l :: fst p, snd p).
  Definition done : printed := ([], None).
  Definition fails_with (e : exn) : printed := ([], Some e).

  (** ga_data.py:93-102: [None[key]] is a TypeError; the dict of the multi-objective
      class has no 'genotype' (nor 'idx_generation' before it is set). *)
  Definition report_single (gd : gadata) : printed :=
    say Bar (say (IndexGeneration (idx_generation gd - 1)) (say BestSolution
      match best_solution gd with
      | BNone => fails_with TypeError
      | BPareto _ None => fails_with KeyError
      | BPareto _ (Some g) => say (BestIndex g) (fails_with KeyError)
      | BSingle i g =>
          say (BestIndex g) (say (PGenotype (genotype i))
            (let rest := say (PScore (score i)) (say (PObjective (obj_score i)) (say (PFeasible (feasible i)) done)) in
             match phenotype i with
             | Some ph => say (PPhenotype ph) rest
             | None => rest
             end))
      end)).

  (** multi_ga_data.py:65-69 print_list, followed by [rest]; [elem i] is the line of
      [elem[label]], None when the dict lacks the label. *)
  Fixpoint print_elems (elem : individ -> option line) (lst : list individ) (rest : printed) : printed :=
    match lst with
    | [] => rest
    | i :: lst' => match elem i with
                   | Some l => say l (print_elems elem lst' rest)
                   | None => fails_with KeyError
                   end
    end.
  Definition print_list (head : line) (lst : list individ) (elem : individ -> option line) (rest : printed) : printed :=
    say head (print_elems elem lst rest).
  (** The labels 'phenotype' and 'obj_score'; every individual has an obj_score. *)
  Definition label_phenotype (i : individ) : option line := option_map ElemPhenotype (phenotype i).
  Definition label_obj_score (i : individ) : option line := Some (ElemObjective (obj_score i)).
  (** multi_ga_data.py:71-85; a copied individual has no 'pareto_set'. *)
  Definition report_multi (gd : gadata) : printed :=
    say Bar (say (IndexGeneration (idx_generation gd - 1)) (say BestSolution
      match best_solution gd with
      | BNone => fails_with TypeError
      | BSingle _ g => say (BestIndex g) (fails_with KeyError)
      | BPareto _ None => fails_with KeyError
      | BPareto set (Some g) =>
          say (BestIndex g)
            (print_list HeadPhenotypes set label_phenotype (print_list HeadObjectives set label_obj_score done))
      end)).
  Definition report (gd : gadata) : printed := if is_multi gd then report_multi gd else report_single gd.

  (** The last lines of an optimize that has come to its end with [gd]: the ready-made
      classes print only when asked (is_print: binary_ga.py:104-105, categorical_ga.py:103-104,
      combinatory_ga.py:98-99, vega.py:107-108, ffga.py:107-108), CollectorGA always
      (collector_ga.py:81). *)
  Definition ga_output (cf : config) (gd : gadata) : printed := if cf_is_print cf then report gd else done.
End Report.
