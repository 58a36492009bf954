(** Selections (ga/selections/). *)
From Coq Require Import ZArith List Bool String Lia.
From Verif Require Import Num State Binary Population GaData.
Import ListNotations.
Open Scope Z_scope.

(** A selection object.  The VEGA classes carry the number of objectives. *)
Inductive selection :=
| SelTournament (tournament_size : Z)
| SelBalanced
| SelRanked
| SelVegaTournament (num_objectives tournament_size : Z)
| SelVegaBalanced (num_objectives : Z)
| SelVegaRanked (num_objectives : Z).

Section Selection.
  Context {NO : NumOps}.

  (** base_selection.py:10-18 execute *)
  Definition base_execute (gd : gadata) : M gadata :=
    reset_idx_individ (members (population gd)) ;;;
    l <- get_empty_copy ;;
    ret (set_parents l gd).

  (** get_total_num_parents: tournament_selection.py:48-56, balanced_selection.py:23-31
      (m = None), vega_tournament_selection.py:39-46, vega_balanced_selection.py:23-30
      (m = the number of objectives). *)
  Definition get_total_num_parents (m : option Z) (gd : gadata) : M Z :=
    let x := nmul (children_percent gd) (nofZ (num_individ (population gd))) in
    y <- match m with
         | None => ret x
         | Some k => lift (py_div x (nofZ k))
         end ;;
    lift_opt (int_error y) (ntrunc y).

  (** v[idx] of a VEGA score. *)
  Definition sv_at (v : sval) (idx : Z) : M num :=
    match v with
    | SVL l => lift_opt IndexError (py_nth l idx)
    | _ => raise TypeError
    end.

  (** population[i]['score'] > best['score'], whole scores or component idx:
      tournament_selection.py:44, vega_tournament_selection.py:35. *)
  Definition better (idx : option Z) (cand best : individ) : M bool :=
    match idx with
    | None => m_ltb (score best) (score cand)
    | Some k =>
        a <- sv_at (score cand) k ;;
        b <- sv_at (score best) k ;;
        ret (nltb b a)
    end.

  (** get_best: tournament_selection.py:33-46, vega_tournament_selection.py:25-37.
      Returns the reference of the winner. *)
  Fixpoint get_best_loop (idx : option Z) (l : list nat) (tournament : list Z) (best : nat) : M nat :=
    match tournament with
    | [] => ret best
    | i :: rest =>
        r <- lift_opt IndexError (py_nth l i) ;;
        ri <- get r ;;
        bi <- get best ;;
        b <- better idx ri bi ;;
        get_best_loop idx l rest (if b : bool then r else best)
    end.
  Definition get_best (idx : option Z) (l : list nat) (tournament : list Z) : M nat :=
    match tournament with
    | [] => raise IndexError
    | i :: rest =>
        r <- lift_opt IndexError (py_nth l i) ;;
        get_best_loop idx l rest r
    end.

  (** One tournament: tournament_selection.py:71-72. *)
  Definition run_tournament (idx : option Z) (t : Z) (l : list nat) : M nat :=
    tr <- sample (zrange 0 (Z.of_nat (List.length l))) t ;;
    get_best idx l tr.

  (** tournament_selection.py:70-74: the while loop after the first parent is found;
      it repeats until a winner with another idx_individ appears. *)
  Fixpoint second_parent (fuel : nat) (idx : option Z) (t : Z) (l : list nat) (first : nat) : M nat :=
    match fuel with
    | O => nofuel
    | S f =>
        b <- run_tournament idx t l ;;
        bi <- get b ;;
        fi <- get first ;;
        if opt_eqb Z.eqb (idx_individ bi) (idx_individ fi)
        then second_parent f idx t l first
        else ret b
    end.
  (** tournament_selection.py:69-76: one pair, copied. *)
  Definition tournament_pair (fuel : nat) (idx : option Z) (t : Z) (l : list nat) : M (nat * nat) :=
    p1 <- run_tournament idx t l ;;
    p2 <- second_parent fuel idx t l p1 ;;
    i1 <- get p1 ;;
    i2 <- get p2 ;;
    c1 <- alloc i1 ;;
    c2 <- alloc i2 ;;
    ret (c1, c2).
  Definition flatten_pairs (l : list (nat * nat)) : list nat :=
    flat_map (fun p => [fst p; snd p]) l.
  (** tournament_selection.py:58-76 *)
  Definition tournament (fuel : nat) (m idx : option Z) (t : Z) (gd : gadata) : M gadata :=
    total <- get_total_num_parents m gd ;;
    ps <- mrepeat (Z.to_nat total) (tournament_pair fuel idx t (members (population gd))) ;;
    ret (set_parents (parents gd ++ flatten_pairs ps) gd).

  (** tournament_selection.py:22-31 check_tournament_size *)
  Definition check_tournament_size (t n : Z) : M unit :=
    if (t <? 2) || (n <=? t) then raise (PyException "size of tournament") else ret tt.

  (** The entry used by the proportional selections: score_type and, for VEGA, the
      component; ind[score_type] (balanced_selection.py:41,45),
      ind[score_type][idx] (vega_balanced_selection.py:40,44). *)
  Definition weight (k : skey) (idx : option Z) (r : nat) : M num :=
    i <- get r ;;
    v <- lift_opt KeyError (key_of k i) ;;
    match idx with
    | None => match v with SV1 x => ret x | _ => raise TypeError end
    | Some j => sv_at v j
    end.

  (** balanced_selection.py:40-46, vega_balanced_selection.py:39-45: the cumulative
      list selection_scores. *)
  Fixpoint cumul (total acc : num) (ws : list num) : exn + list num :=
    match ws with
    | [] => inr []
    | w :: ws' =>
        match py_div w total with
        | inl e => inl e
        | inr q => let acc' := nadd acc q in
                   match cumul total acc' ws' with
                   | inl e => inl e
                   | inr rest => inr (acc' :: rest)
                   end
        end
    end.
  Definition selection_scores (ws : list num) : exn + list num :=
    match cumul (nsum ws) nzero ws with
    | inl e => inl e
    | inr cs => inr (nzero :: cs)
    end.

  (** min(range(len(scores)), key=lambda i: abs(scores[i] - r)): the first index with
      the smallest key. *)
  Fixpoint argmin_loop (r : num) (scores : list num) (i best : Z) (kbest : num) : Z :=
    match scores with
    | [] => best
    | c :: cs => let k := nabs (nsub c r) in
                 if nltb k kbest then argmin_loop r cs (i + 1) i k
                 else argmin_loop r cs (i + 1) best kbest
    end.
  (** balanced_selection.py:48-56 get_index for a given random value. *)
  Definition index_for (scores : list num) (r : num) : exn + Z :=
    match scores with
    | [] => inl ValueError
    | c :: cs =>
        let idx := argmin_loop r cs 1 0 (nabs (nsub c r)) in
        match nth_error scores (Z.to_nat idx) with
        | None => inl IndexError
        | Some ci => inr (if nleb ci r then idx else idx - 1)
        end
    end.
  Definition get_index (scores : list num) : M Z :=
    r <- random_ ;; lift (index_for scores r).

  (** balanced_selection.py:69-72: the loop until a different second index. *)
  Fixpoint second_index (fuel : nat) (scores : list num) (first : Z) : M Z :=
    match fuel with
    | O => nofuel
    | S f =>
        i <- get_index scores ;;
        if i =? first then second_index f scores first else ret i
    end.
  (** balanced_selection.py:67-74: one pair, copied. *)
  Definition balanced_pair (fuel : nat) (scores : list num) (l : list nat) : M (nat * nat) :=
    i1 <- get_index scores ;;
    i2 <- second_index fuel scores i1 ;;
    d1 <- pop_at l i1 ;;
    c1 <- alloc d1 ;;
    d2 <- pop_at l i2 ;;
    c2 <- alloc d2 ;;
    ret (c1, c2).
  (** balanced_selection.py:58-74 *)
  Definition balanced_selection (fuel : nat) (m : option Z) (scores : list num) (gd : gadata) : M gadata :=
    total <- get_total_num_parents m gd ;;
    ps <- mrepeat (Z.to_nat total) (balanced_pair fuel scores (members (population gd))) ;;
    ret (set_parents (parents gd ++ flatten_pairs ps) gd).

  (** balanced_selection.py:33-46, vega_balanced_selection.py:32-45 add_probabilities *)
  Definition add_probabilities (k : skey) (idx : option Z) (l : list nat) : M (list num) :=
    ws <- mmap (weight k idx) l ;;
    lift (selection_scores ws).

  (** population[i]['rank'] = v, or population[i]['rank'][idx] = v. *)
  Definition put_rank (idx : option Z) (l : list nat) (i : Z) (v : num) : M unit :=
    r <- lift_opt IndexError (py_nth l i) ;;
    match idx with
    | None => modify r (set_rank (Some (SV1 v)))
    | Some j =>
        ind <- get r ;;
        match rank ind with
        | None => raise KeyError
        | Some (SVL lst) =>
            if (0 <=? j) && (j <? Z.of_nat (List.length lst))
            then modify r (set_rank (Some (SVL (list_set lst (Z.to_nat j) v))))
            else raise IndexError
        | Some _ => raise TypeError
        end
    end.
  (** population[i]['score'] or its component, as the value compared with prev_score. *)
  Definition rank_score (idx : option Z) (l : list nat) (i : Z) : M sval :=
    ind <- pop_at l i ;;
    match idx with
    | None => ret (score ind)
    | Some j => x <- sv_at (score ind) j ;; ret (SV1 x)
    end.
  (** (sum(range(a, b)) + count) / count *)
  Definition mid_rank (a b count : Z) : num :=
    ndiv_raw (nofZ (fold_left Z.add (zrange a b) 0 + count)) (nofZ count).
  Definition put_group (idx : option Z) (l : list nat) (a b count : Z) : M unit :=
    miter (fun i => put_rank idx l i (mid_rank a b count)) (zrange a b).
  (** ranked_selection.py:30-42, vega_ranked_selection.py:30-42: one iteration; the
      state is (prev_score, count). *)
  Definition rank_step (idx : option Z) (l : list nat) (pc : sval * Z) (i : Z) : M (sval * Z) :=
    let '(prev, count) := pc in
    let rk := i + 1 in
    put_rank idx l i (nofZ rk) ;;;
    sc <- rank_score idx l i ;;
    if sv_eqb sc prev then
      let count' := count + 1 in
      (if rk =? Z.of_nat (List.length l) then put_group idx l (rk - count') rk count' else ret tt) ;;;
      ret (sc, count')
    else if 1 <? count then
      put_group idx l (i - count) i count ;;; ret (sc, 1)
    else ret (sc, count).
  Definition assign_selection_ranks (idx : option Z) (l : list nat) : M unit :=
    mfold (rank_step idx l) (zrange 0 (Z.of_nat (List.length l))) (SV1 (nofZ (-1)), 1) ;;; ret tt.

  (** One pass of BalancedSelection.execute (balanced_selection.py:76-85) with the
      add_probabilities of the class: ranked_selection.py:21-43,
      vega_ranked_selection.py:21-43. *)
  Definition balanced_pass (fuel : nat) (ranked : bool) (m idx : option Z) (gd : gadata) : M gadata :=
    gd1 <- base_execute gd ;;
    let l := members (population gd1) in
    (if ranked then assign_selection_ranks idx l else ret tt) ;;;
    scores <- add_probabilities (if ranked then KRank else KScore) idx l ;;
    balanced_selection fuel m scores gd1.

  (** execute of every class: tournament_selection.py:78-87,
      vega_tournament_selection.py:48-67, balanced_selection.py:76-85,
      ranked_selection.py:45-52, vega_balanced_selection.py:47-55,
      vega_ranked_selection.py:45-55. *)
  Definition selection_execute (fuel : nat) (s : selection) (gd : gadata) : M gadata :=
    match s with
    | SelTournament t =>
        check_tournament_size t (num_individ (population gd)) ;;;
        gd1 <- base_execute gd ;;
        tournament fuel None None t gd1
    | SelVegaTournament m t =>
        check_tournament_size t (num_individ (population gd)) ;;;
        gd1 <- base_execute gd ;;
        mfold (fun g i => tournament fuel (Some m) (Some i) t g) (zrange 0 m) gd1
    | SelBalanced => balanced_pass fuel false None None gd
    | SelRanked => balanced_pass fuel true None None gd
    | SelVegaBalanced m =>
        mfold (fun g i => balanced_pass fuel false (Some m) (Some i) g) (zrange 0 m) gd
    | SelVegaRanked m =>
        miter (fun r => modify r (set_rank (Some (SVL (repeat nzero (Z.to_nat m))))))
              (members (population gd)) ;;;
        mfold (fun g i => balanced_pass fuel true (Some m) (Some i) g) (zrange 0 m) gd
    end.
End Selection.
