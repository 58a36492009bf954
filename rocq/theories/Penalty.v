(** Penalties (ga/penalties/). *)
From Coq Require Import ZArith List Bool String Lia.
From Verif Require Import Num State Binary GaData.
Import ListNotations.
Open Scope string_scope.
Open Scope list_scope.
Open Scope Z_scope.

Section Penalty.
  Context {NO : NumOps}.

  (** A dict from int to list: the association list of its items. *)
  Definition pydict (A : Type) := list (Z * list A).
  Fixpoint dict_get {A} (d : pydict A) (k : Z) : exn + list A :=
    match d with
    | [] => inl KeyError
    | (k', v) :: d' => if k =? k' then inr v else dict_get d' k
    end.

  (** An exponent e (alpha, betta), as the code uses it: the function that maps x to x ** e,
      or to the exception it raises (a negative power of 0, an overflow).  Simplification:
      a power that is a complex number is not followed. *)
  Definition expo : Type := num -> exn + num.
  (** x ** k: Python raises OverflowError when a power of finite floats is too large. *)
  Definition py_pow (x : num) (k : nat) : exn + num :=
    match ntrunc x, ntrunc (npow x k) with
    | Some _, None => inl OverflowError
    | _, _ => inr (npow x k)
    end.
  (** The exponent k, a natural number. *)
  Definition natural (k : nat) : expo := fun x => py_pow x k.

  (** A penalty object. *)
  Inductive penalty :=
  | Dynamic (delta c : num) (alpha betta : expo)
  | Adaptive (delta betta_1 betta_2 : num) (betta : expo)
  | Static (eq_int : pydict (num * num)) (eq_coef : pydict num)
           (ineq_int : pydict (num * num)) (ineq_coef : pydict num).

  Definition bad_sign : exn := PyException "unexpected sign for conditionals".

  (** adaptive_penalty.py:6-26 *)
  Definition new_adaptive (delta b1 b2 : num) (betta : expo) : exn + penalty :=
    if nleb b1 (nofZ 1) then inl (PyException "betta_1")
    else if nleb b2 (nofZ 1) then inl (PyException "betta_2")
    else if neqb b1 b2 then inl (PyException "betta_1 and betta_2 should not be equal")
    else inr (Adaptive delta b1 b2 betta).
  (** static_penalty.py:31-40 *)
  Definition new_static (ei : pydict (num * num)) (ec : pydict num)
             (ii : pydict (num * num)) (ic : pydict num) : exn + penalty :=
    if negb (Nat.eqb (List.length ec) (List.length ei)) then inl (PyException "equality lengths")
    else if negb (Nat.eqb (List.length ic) (List.length ii)) then inl (PyException "inequality lengths")
    else inr (Static ei ec ii ic).

  (** dynamic_penalty.py:16-25, adaptive_penalty.py:28-37: the sum of the violations
      to the power; the two lists have equal lengths (base_penalty.py:45-47). *)
  Fixpoint sum_violations (power : expo) (acc : num) (conds : list string) (values : list num) : exn + num :=
    match conds, values with
    | [], _ => inr acc
    | c :: cs, v :: vs =>
        if String.eqb c "!=" then
          match power (nabs v) with inl e => inl e | inr x => sum_violations power (nadd acc x) cs vs end
        else if String.eqb c "<=" then
          match power (nmax0 v) with inl e => inl e | inr x => sum_violations power (nadd acc x) cs vs end
        else inl bad_sign
    | _ :: _, [] => inl IndexError
    end.

  (** static_penalty.py:49-53,58-62: the loop over the intervals; [res] is the local
      variable (None while unbound).  Both loops take the coefficients from
      equality_r_coef. *)
  Fixpoint interval_loop (coefs : exn + list num) (v weight : num) (idx : Z)
           (ints : list (num * num)) (res : option num) : exn + option num :=
    match ints with
    | [] => inr res
    | (lo, hi) :: rest =>
        if nltb lo v && nltb v hi then
          match coefs with
          | inl e => inl e
          | inr cl => match py_nth cl idx with
                      | None => inl IndexError
                      | Some k => interval_loop coefs v weight (idx + 1) rest (Some (nmul k weight))
                      end
          end
        else inl (PyException "unexpected intervals")
    end.
  (** static_penalty.py:42-65 with power 2; state: res and sum_conditional *)
  Fixpoint static_sum (ei : pydict (num * num)) (ec : pydict num) (ii : pydict (num * num))
           (i : Z) (res : option num) (acc : num) (conds : list string) (values : list num) : exn + num :=
    match conds, values with
    | [], _ => inr acc
    | c :: cs, v :: vs =>
        if String.eqb c "!=" then
          if negb (neqb v nzero) then static_sum ei ec ii (i + 1) (Some nzero) acc cs vs
          else match dict_get ei i with
               | inl e => inl e
               | inr ints =>
                   match interval_loop (dict_get ec i) v (nabs v) 0 ints res with
                   | inl e => inl e
                   | inr None => inl UnboundLocalError
                   | inr (Some x) =>
                       match py_pow x 2 with
                       | inl e => inl e
                       | inr y => static_sum ei ec ii (i + 1) (Some x) (nadd acc y) cs vs
                       end
                   end
               end
        else if String.eqb c "<=" then
          if nleb v nzero then static_sum ei ec ii (i + 1) (Some nzero) acc cs vs
          else match dict_get ii i with
               | inl e => inl e
               | inr ints =>
                   match interval_loop (dict_get ec i) v (nmax0 v) 0 ints res with
                   | inl e => inl e
                   | inr None => inl UnboundLocalError
                   | inr (Some x) =>
                       match py_pow x 2 with
                       | inl e => inl e
                       | inr y => static_sum ei ec ii (i + 1) (Some x) (nadd acc y) cs vs
                       end
                   end
               end
        else inl bad_sign
    | _ :: _, [] => inl IndexError
    end.

  (** best_individ["feasible"] (adaptive_penalty.py:53,55): None is not
      subscriptable, the Pareto dict has no such key. *)
  Definition best_feasible (b : best_sol) : exn + bool :=
    match b with
    | BNone => inl TypeError
    | BSingle i _ => inr (feasible i)
    | BPareto _ _ => inl KeyError
    end.

  (** execute of the three classes (dynamic_penalty.py:27-39, adaptive_penalty.py:39-63,
      static_penalty.py:67-79) after base_penalty.py:37-50, as called by
      base_fitness.py:76-91. *)
  Definition penalty_execute (p : penalty) (conds : list string) (values : list num)
             (iter_generation : Z) (best : best_sol) : exn + num :=
    if negb (Nat.eqb (List.length conds) (List.length values))
    then inl (PyException "numbers of values and conditional must be equals")
    else
      match p with
      | Dynamic delta c alpha betta =>
          match sum_violations betta nzero conds values with
          | inl e => inl e
          | inr sum => match alpha (nmul c (nofZ iter_generation)) with
                       | inl e => inl e
                       | inr y => inr (nmul (nmul delta y) sum)
                       end
          end
      | Adaptive delta b1 b2 betta =>
          match sum_violations betta nzero conds values with
          | inl e => inl e
          | inr sum =>
              if iter_generation =? 0 then inr (nmul (nmul delta nzero) sum)
              else match best_feasible best with
                   | inl e => inl e
                   | inr true =>
                       match py_div none_ b1 with
                       | inl e => inl e
                       | inr q => inr (nmul (nmul delta (nmul q (nofZ 10))) sum)
                       end
                   | inr false => inr (nmul (nmul delta (nmul b2 (nofZ 10))) sum)
                   end
          end
      | Static ei ec ii ic => static_sum ei ec ii 0 None nzero conds values
      end.
End Penalty.
