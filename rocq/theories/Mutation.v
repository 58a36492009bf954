(** Mutations (ga/mutations/). *)
From Coq Require Import ZArith List Bool String Lia.
From Verif Require Import Num State Binary Population GaData.
Import ListNotations.
Open Scope string_scope.
Open Scope list_scope.
Open Scope Z_scope.

Section Mutation.
  Context {NO : NumOps}.

  (** The argument mutation_lvl by its Python type: str, float, or anything else
      (an int is anything else: the code tests type(..) is float). *)
  Inductive lvl := LStr (s : string) | LFloat (x : num) | LOther.

  Inductive combi_kind := Movement | Swap_ | Inversion | Shift.

  (** A mutation object after construction.  The binary one keeps a string level
      until its first execute. *)
  Inductive mutation :=
  | MutCombi (k : combi_kind) (level : num)
  | MutBin (level : lvl)
  | MutCat (level : num).

  Definition bad_level : exn := PyException "mutation level is not expected".
  (** The decimal literal n/d as the number closest to it. *)
  Definition dec (n d : Z) : num := ndiv_raw (nofZ n) (nofZ d).

  (** level < 0 or level > 1 *)
  Definition out_of_01 (x : num) : bool := nltb x (nofZ 0) || nltb (nofZ 1) x.

  (** base_combinatory_mutation.py:14-43 *)
  Definition new_combi (k : combi_kind) (l : lvl) : exn + mutation :=
    match l with
    | LStr s =>
        if String.eqb s "weak" then inr (MutCombi k (dec 3 100))
        else if String.eqb s "normal" then inr (MutCombi k (dec 1 10))
        else if String.eqb s "strong" then inr (MutCombi k (dec 3 10))
        else inl bad_level
    | LFloat x => if out_of_01 x then inl bad_level else inr (MutCombi k x)
    | LOther => inl bad_level
    end.

  (** bin_string_mutation.py:9-37 *)
  Definition new_bin (l : lvl) : exn + mutation :=
    match l with
    | LStr s =>
        if String.eqb s "weak" || String.eqb s "normal" || String.eqb s "strong"
        then inr (MutBin l) else inl bad_level
    | LFloat x => if out_of_01 x then inl bad_level else inr (MutBin l)
    | LOther => inl bad_level
    end.

  (** categorical_mutation.py:8-36: a str level reads self.mutation_map, an attribute
      that does not exist. *)
  Definition new_cat (l : lvl) : exn + mutation :=
    match l with
    | LStr _ => inl AttributeError
    | LFloat x => if out_of_01 x then inl bad_level else inr (MutCat x)
    | LOther => inl bad_level
    end.

  (** determines_mutation: base_combinatory_mutation.py:45-54,
      bin_string_mutation.py:53-62, categorical_mutation.py:53-62; rnd_samples = 1000
      (base_mutation.py:19). *)
  Definition determines_mutation (level : num) : M bool :=
    k <- randint 0 999 ;;
    ret (nleb (nofZ k) (nmul level (nofZ 1000))).

  (** sample(range(0, len), 2) *)
  Definition two_idx (len : Z) : M (Z * Z) :=
    s <- sample (zrange 0 len) 2 ;;
    match s with [a; b] => ret (a, b) | _ => raise Unmodelled end.

  Definition zlen {A} (l : list A) : Z := Z.of_nat (List.length l).

  (** movement_mutation.py:11-21; both indices are valid, pop and insert never raise *)
  Definition move_gene (i j : Z) (g : list gv) : list gv :=
    match nth_error g (Z.to_nat i) with
    | Some z => list_insert (remove_at (Z.to_nat i) g) (Z.to_nat j) z
    | None => g
    end.
  Definition movement (g : list gv) : M (list gv) :=
    ij <- two_idx (zlen g) ;; ret (move_gene (fst ij) (snd ij) g).

  (** swap_mutation.py:11-23 *)
  Definition swap_genes (i j : Z) (g : list gv) : list gv :=
    match nth_error g (Z.to_nat i), nth_error g (Z.to_nat j) with
    | Some x, Some y => list_set (list_set g (Z.to_nat i) y) (Z.to_nat j) x
    | _, _ => g
    end.
  Definition swap_mut (g : list gv) : M (list gv) :=
    ij <- two_idx (zlen g) ;; ret (swap_genes (fst ij) (snd ij) g).

  (** inversion_mutation.py:11-28 *)
  Definition invert_genes (a b : Z) (g : list gv) : list gv :=
    slice_to g a ++ rev (slice g a (b + 1)) ++ slice_from g (b + 1).
  Definition inversion (g : list gv) : M (list gv) :=
    ij <- two_idx (zlen g) ;;
    let '(i, j) := ij in
    let '(a, b) := if j <? i then (j, i) else (i, j) in
    ret (invert_genes a b g).

  (** shift_mutation.py:11-29 *)
  Definition shift (g : list gv) : M (list gv) :=
    chain_length <- randint 1 (zlen g - 2) ;;
    s_idx <- randint 0 (zlen g - chain_length) ;;
    let e_idx := s_idx + chain_length in
    let chain := slice g s_idx e_idx in
    let rest := (slice_to g s_idx ++ slice_from g e_idx) in
    i_idx <- choice (filter (fun i => negb (i =? s_idx)) (zrange 0 (zlen rest + 1))) ;;
    ret (slice_to rest i_idx ++ chain ++ slice_from rest i_idx).

  Definition combi_mutation (k : combi_kind) (g : list gv) : M (list gv) :=
    match k with
    | Movement => movement g
    | Swap_ => swap_mut g
    | Inversion => inversion g
    | Shift => shift g
    end.

  (** bin_string_mutation.py:71-77: one gene. *)
  Definition flip (g : gv) : gv :=
    match g with GBit false => GBit true | _ => GBit false end.
  Definition bin_gene (level : num) (g : gv) : M gv :=
    b <- determines_mutation level ;; ret (if b : bool then flip g else g).
  Definition bin_mutation (level : num) (g : list gv) : M (list gv) := mmap (bin_gene level) g.

  (** categorical_mutation.py:72-85: one gene with its pool. *)
  Definition cat_gene (level : num) (pool : cgen) (g : gv) : M gv :=
    b <- determines_mutation level ;;
    if b : bool then
      match pool with
      | CList l =>
          if 1 <? zlen l then choice (filter (fun x => negb (gv_eqb x g)) l) else ret g
      | CRange a b stp =>
          if stp =? 0 then raise ValueError
          else let r := map GInt (py_range a (b + 1) stp) in
               if 1 <? zlen r then choice (filter (fun x => negb (gv_eqb x g)) r) else ret g
      | COther => raise TypeError
      end
    else ret g.
  (** a genotype longer than gens: IndexError when such a gene mutates *)
  Fixpoint cat_mutation (level : num) (pools : list cgen) (g : list gv) : M (list gv) :=
    match g with
    | [] => ret []
    | x :: g' =>
        match pools with
        | p :: ps =>
            y <- cat_gene level p x ;;
            r <- cat_mutation level ps g' ;;
            ret (y :: r)
        | [] =>
            b <- determines_mutation level ;;
            if b : bool then raise IndexError
            else (r <- cat_mutation level [] g' ;; ret (x :: r))
        end
    end.

  (** update_mutation_lvl: bin_string_mutation.py:39-51 *)
  Definition update_level (l : lvl) (len_bin_str : Z) : exn + num :=
    match l with
    | LFloat x => inr x
    | LStr s =>
        if String.eqb s "weak" then py_div (dec 3 10) (nofZ len_bin_str)
        else if String.eqb s "normal" then py_div (nofZ 1) (nofZ len_bin_str)
        else py_div (nofZ 3) (nofZ len_bin_str)
    | LOther => inl Unmodelled
    end.

  (** Apply an update of the genotype to one child. *)
  Definition mutate_child (f : list gv -> M (list gv)) (r : nat) : M unit :=
    i <- get r ;;
    g <- f (genotype i) ;;
    modify r (set_genotype g).

  (** base_combinatory_mutation.py:66-76 *)
  Definition combi_child (k : combi_kind) (level : num) (r : nat) : M unit :=
    b <- determines_mutation level ;;
    if b : bool then mutate_child (combi_mutation k) r else ret tt.

  (** execute: base_combinatory_mutation.py:66-76, bin_string_mutation.py:79-88,
      categorical_mutation.py:87-95.  Returns the mutation object afterwards.
      CategoricalMutation run by a CollectorGA on another population subscripts what it
      finds in gens: the three ints of an ordinal population (TypeError), the triples of
      floats of a binary one (range raises TypeError; simplification: with triples of
      ints Python would write ints into the genotype and raise TypeError when it is
      decoded). *)
  Definition mutation_execute (m : mutation) (gd : gadata) : M mutation :=
    match m with
    | MutCombi k level =>
        miter (combi_child k level) (children gd) ;;; ret m
    | MutBin l =>
        match gspec_of (population gd) with
        | GenBinary _ _ bp =>
            level <- lift (update_level l (last (idx_bits bp) 0)) ;;
            miter (mutate_child (bin_mutation level)) (children gd) ;;;
            ret (MutBin (LFloat level))
        | _ => raise AttributeError
        end
    | MutCat level =>
        match gspec_of (population gd) with
        | GenCat pools =>
            miter (mutate_child (cat_mutation level pools)) (children gd) ;;; ret m
        | GenOrd _ _ _ =>
            miter (mutate_child (cat_mutation level [COther; COther; COther])) (children gd) ;;; ret m
        | GenBinary _ gens _ =>
            miter (mutate_child (cat_mutation level (map (fun _ => COther) gens))) (children gd) ;;; ret m
        end
    end.
End Mutation.
