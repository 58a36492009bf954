(** Fitness functions (ga/fitness/). *)
From Coq Require Import ZArith List Bool String Lia.
From Verif Require Import Num State Binary Population GaData Penalty.
Import ListNotations.
Open Scope string_scope.
Open Scope list_scope.
Open Scope Z_scope.

Inductive fitness_kind := Hyperbola | VegaHyperbola | Ffga.

Section Fitness.
  Context {NO : NumOps}.

  (** input_data: an opaque object with its truth value. *)
  Record pyobj := mkObj { truthy : bool; obj_id : Z }.

  (** The user's objective function, by the number of arguments it accepts.  The
      first argument of the model function is the number of earlier calls, so noisy
      and stateful functions are covered; it may raise.  Simplification: it does not
      modify its argument and returns a number or a tuple of numbers. *)
  Inductive objfun :=
  | Obj1 (f : nat -> list gv -> exn + oval)
  | Obj2 (f : nat -> pyobj -> list gv -> exn + oval)
  | Obj12 (f1 : nat -> list gv -> exn + oval) (f2 : nat -> pyobj -> list gv -> exn + oval).

  (** obj_function(genes) and obj_function(input_data, genes); TypeError on the wrong
      number of arguments.  The call is logged. *)
  Definition call_logged (r : nat -> exn + oval) (genes : list gv) : M oval :=
    fun s => match r (List.length (log s)) with
             | inl e => Err e
             | inr v => Ok v (set_log ((genes, v) :: log s) s)
             end.
  Definition call1 (o : objfun) (genes : list gv) : M oval :=
    match o with
    | Obj1 f | Obj12 f _ => call_logged (fun k => f k genes) genes
    | Obj2 _ => raise TypeError
    end.
  Definition call2 (o : objfun) (d : pyobj) (genes : list gv) : M oval :=
    match o with
    | Obj1 _ => raise TypeError
    | Obj2 f | Obj12 _ f => call_logged (fun k => f k d genes) genes
    end.

  (** obj_value: None, a number, or a list of numbers. *)
  Inductive obj_target := TNone | T1 (x : num) | TL (l : list num).

  (** The penalty argument: falsy, a penalty object, or another truthy object. *)
  Inductive penalty_arg := PNone | PPen (p : penalty) | PBad.

  (** A fitness object after construction. *)
  Record fitness := mkFit {
    fkind : fitness_kind;
    obj_function : objfun;
    obj_value : obj_target;
    input_data : option pyobj;
    fpenalty : option penalty;
    conditions : list string;
    is_conditional : bool;
    idx_opt : list Z        (* indices popped, in order *)
  }.

  Fixpoint index_of (s : string) (l : list string) : option Z :=
    match l with
    | [] => None
    | x :: l' => if String.eqb x s then Some 0
                 else match index_of s l' with Some i => Some (i + 1) | None => None end
    end.
  Fixpoint remove_first (s : string) (l : list string) : list string :=
    match l with
    | [] => []
    | x :: l' => if String.eqb x s then l' else x :: remove_first s l'
    end.
  (** [i for i in reversed(range(len(l))) if l[i] == s] *)
  Fixpoint indices_from (s : string) (i : Z) (l : list string) : list Z :=
    match l with
    | [] => []
    | x :: l' => (if String.eqb x s then [i] else []) ++ indices_from s (i + 1) l'
    end.

  Definition is_multi_kind (k : fitness_kind) : bool :=
    match k with Hyperbola => false | _ => true end.

  (** Construction: base_fitness.py:47-74 with set_opt_value of base_fitness.py:54-60
      or multi_fitness.py:57-64.  The second component is the caller's conditions
      list after the call: list.remove works in place, the filter of the
      multi-objective classes builds a new list. *)
  Definition new_fitness (k : fitness_kind) (o : objfun) (target : obj_target)
             (data : option pyobj) (pen : penalty_arg) (conds : option (list string))
    : exn + (fitness * option (list string)) :=
    let cl := match conds with None => ["optimize"] | Some l => l end in
    match pen with
    | PNone => inr (mkFit k o target data None cl false [], conds)
    | PBad => inl (PyException "unexpected penalty_method")
    | PPen p =>
        if (Z.of_nat (List.length cl) <=? 1)
        then inr (mkFit k o target data (Some p) cl false [], conds)
        else if is_multi_kind k then
          inr (mkFit k o target data (Some p)
                     (filter (fun a => negb (String.eqb a "optimize")) cl) true
                     (rev (indices_from "optimize" 0 cl)), conds)
        else
          match index_of "optimize" cl with
          | None => inl ValueError
          | Some i =>
              let cl' := remove_first "optimize" cl in
              inr (mkFit k o target data (Some p) cl' true [i],
                   match conds with None => None | Some _ => Some cl' end)
          end
    end.

  (** The values after check_input: a number, a list, or None. *)
  Inductive cval := CVNum (x : num) | CVList (l : list num) | CVNone.

  (** base_fitness.py:93-112, multi_fitness.py:73-79 check_input *)
  Definition check_input (f : fitness) (v : oval) : exn + cval :=
    if is_multi_kind (fkind f) then
      match v with OTuple l => inr (CVList l) | OScalar _ => inl TypeError end
    else if is_conditional f then
      match v with
      | OScalar _ => inl (PyException "must return more then 1 value")
      | OTuple l =>
          if Nat.eqb (List.length l) (List.length (conditions f) + 1) then inr (CVList l)
          else inl (PyException "number of returned values")
      end
    else
      match v with
      | OScalar x => inr (CVNum x)
      | OTuple l => if 1 <? Z.of_nat (List.length l)
                    then inl (PyException "number of returned values must be 1")
                    else inr CVNone
      end.

  (** base_fitness.py:114-126 calc_obj_func *)
  Definition calc_obj_func (f : fitness) (genes : list gv) : M cval :=
    v <- match input_data f with
         | Some d => if truthy d then call2 (obj_function f) d genes else call1 (obj_function f) genes
         | None => call1 (obj_function f) genes
         end ;;
    lift (check_input f v).

  (** values.pop(i) *)
  Definition py_pop (l : list num) (i : Z) : exn + (num * list num) :=
    match py_nth l i with
    | None => inl IndexError
    | Some x => inr (x, remove_at (Z.to_nat i) l)
    end.
  Fixpoint pop_all (idxs : list Z) (values : list num) : exn + (list num * list num) :=
    match idxs with
    | [] => inr ([], values)
    | i :: rest =>
        match py_pop values i with
        | inl e => inl e
        | inr (x, vs) => match pop_all rest vs with
                         | inl e => inl e
                         | inr (xs, vs') => inr (x :: xs, vs')
                         end
        end
    end.
  (** set_obj_score: base_fitness.py:140-148, multi_fitness.py:81-91 *)
  Definition take_obj_score (f : fitness) (values : list num) : exn + (sval * list num) :=
    if is_multi_kind (fkind f) then
      match pop_all (idx_opt f) values with
      | inl e => inl e
      | inr (xs, vs) => inr (SVL xs, vs)
      end
    else
      match idx_opt f with
      | [i] => match py_pop values i with
               | inl e => inl e
               | inr (x, vs) => inr (SV1 x, vs)
               end
      | _ => inl TypeError
      end.

  (** base_fitness.py:166-172: does some value violate its condition; IndexError when
      there are more values than conditions. *)
  Fixpoint violates (conds : list string) (values : list num) : exn + bool :=
    match values with
    | [] => inr false
    | v :: vs =>
        match conds with
        | [] => inl IndexError
        | c :: cs =>
            let bad := if String.eqb c "<=" then nltb nzero v else negb (neqb v nzero) in
            match violates cs vs with
            | inl e => inl e
            | inr b => inr (bad || b)
            end
        end
    end.

  (** 1.0 / (1 + abs(target - x) + pen) *)
  Definition hyper (target x pen : num) : exn + num :=
    py_div none_ (nadd (nadd none_ (nabs (nsub target x))) pen).
  (** -(x + pen) *)
  Definition neg_score (x pen : num) : num := nopp (nadd x pen).

  Fixpoint hypers (target obj : list num) (pen : num) : exn + list num :=
    match obj with
    | [] => inr []
    | x :: xs =>
        match target with
        | [] => inl IndexError
        | t :: ts => match hyper t x pen with
                     | inl e => inl e
                     | inr y => match hypers ts xs pen with
                                | inl e => inl e
                                | inr ys => inr (y :: ys)
                                end
                     end
        end
    end.

  (** get_fitness_score: hyperbola_fitness.py:11-26, vega_hyperbola_fitness.py:11-27,
      ffga_fitness.py:12-28. *)
  Definition get_fitness_score (f : fitness) (i : individ) (pen : num) : exn + sval :=
    match fkind f with
    | Hyperbola =>
        match obj_value f, obj_score i with
        | TNone, SV1 x => inr (SV1 (neg_score x pen))
        | T1 t, SV1 x => match hyper t x pen with inl e => inl e | inr y => inr (SV1 y) end
        | _, _ => inl TypeError
        end
    | VegaHyperbola =>
        match obj_value f, obj_score i with
        | TNone, SVL xs => inr (SVL (map (fun x => neg_score x pen) xs))
        | TL ts, SVL xs => match hypers ts xs pen with inl e => inl e | inr ys => inr (SVL ys) end
        | T1 _, SVL [] => inr (SVL [])
        | _, _ => inl TypeError
        end
    | Ffga =>
        match rank i with
        | None => inl KeyError
        | Some (SV1 r) => match py_div none_ (nadd none_ r) with inl e => inl e | inr y => inr (SV1 y) end
        | Some _ => inl TypeError
        end
    end.

  (** base_fitness.py:162-181: one individual (its genotype is the phenotype at this
      moment for binary populations).  get_fitness_score is called twice on the
      conditional path with the same result; the model calls it once. *)
  Definition evaluate (f : fitness) (gen : Z) (best : best_sol) (r : nat) : M unit :=
    i <- get r ;;
    if is_none (score i) then
      v <- calc_obj_func f (genotype i) ;;
      if is_conditional f then
        match v, fpenalty f with
        | CVList values, Some p =>
            ov <- lift (take_obj_score f values) ;;
            modify r (set_obj_score_f (fst ov)) ;;;
            bad <- lift (violates (conditions f) (snd ov)) ;;
            modify r (fun i => if bad : bool then set_feasible false i else i) ;;;
            pen <- lift (penalty_execute p (conditions f) (snd ov) gen best) ;;
            i' <- get r ;;
            sc <- lift (get_fitness_score f i' pen) ;;
            modify r (set_score sc)
        | _, _ => raise Unmodelled
        end
      else
        modify r (set_obj_score_f (match v with CVNum x => SV1 x | CVList l => SVL l | CVNone => SVNone end)) ;;;
        i' <- get r ;;
        sc <- lift (get_fitness_score f i' nzero) ;;
        modify r (set_score sc)
    else ret tt.

  (** base_fitness.py:150-184 execute *)
  Definition base_fitness_execute (f : fitness) (gd : gadata) : M unit :=
    let l := members (population gd) in
    let g := gspec_of (population gd) in
    (if is_phenotype g then get_phenotype g l ;;; swap l else ret tt) ;;;
    miter (evaluate f (idx_generation gd) (best_solution gd)) l ;;;
    (if is_phenotype g then swap l else ret tt).

  (** list(obj_function(x['phenotype'])), multi_fitness.py:101-102 *)
  Definition phen_of (r : nat) : M (list gv) :=
    i <- get r ;;
    match phenotype i with
    | None => raise KeyError
    | Some None => raise Unmodelled      (* not reached: get_phenotype ran before *)
    | Some (Some ph) => ret ph
    end.
  Definition call_list (o : objfun) (genes : list gv) : M (list num) :=
    v <- call1 o genes ;;
    match v with OTuple l => ret l | OScalar _ => raise TypeError end.

  (** multi_fitness.py:107-110: the elementwise maximum; IndexError when y is longer. *)
  Fixpoint max_score (x y : list num) : exn + list num :=
    match y with
    | [] => inr x
    | b :: y' => match x with
                 | [] => inl IndexError
                 | a :: x' => match max_score x' y' with
                              | inl e => inl e
                              | inr t => inr ((if nltb a b then b else a) :: t)
                              end
                 end
    end.
  (** multi_fitness.py:93-117 inferior: Some r = the reference of the inferior one. *)
  Definition inferior (o : objfun) (x y : nat) : M (option nat) :=
    px <- phen_of x ;;
    xs <- call_list o px ;;
    py <- phen_of y ;;
    ys <- call_list o py ;;
    if lst_eqb xs ys then ret None
    else
      ms <- lift (max_score xs ys) ;;
      ret (if lst_eqb ms xs then Some x else if lst_eqb ms ys then Some y else None).

  (** inf['rank'] += 1 *)
  Definition incr_rank (r : nat) : M unit :=
    i <- get r ;;
    match rank i with
    | Some (SV1 x) => modify r (set_rank (Some (SV1 (nadd x none_))))
    | Some _ => raise TypeError
    | None => raise KeyError
    end.
  Definition compare_pair (o : objfun) (x y : nat) : M unit :=
    inf <- inferior o x y ;;
    match inf with Some r => incr_rank r | None => ret tt end.
  (** multi_fitness.py:128-132: all pairs i < j *)
  Fixpoint compare_all (o : objfun) (l : list nat) : M unit :=
    match l with
    | [] => ret tt
    | x :: l' => miter (compare_pair o x) l' ;;; compare_all o l'
    end.
  (** multi_fitness.py:119-132 assign_ranks *)
  Definition assign_ranks (o : objfun) (l : list nat) : M unit :=
    miter (fun r => modify r (set_rank (Some (SV1 none_)))) l ;;;
    compare_all o l.

  (** execute: base_fitness.py:150-184, multi_fitness.py:134-145, ffga_fitness.py:30-38 *)
  Definition fitness_execute (f : fitness) (gd : gadata) : M unit :=
    if is_multi_kind (fkind f) then
      let l := members (population gd) in
      let g := gspec_of (population gd) in
      (if is_phenotype g then get_phenotype g l else ret tt) ;;;
      assign_ranks (obj_function f) l ;;;
      base_fitness_execute f gd
    else base_fitness_execute f gd.
End Fitness.
