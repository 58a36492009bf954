(** Populations: base_population.py, cat_population.py, order_cat_population.py and
    the stateful part of binary_population.py. *)
From Coq Require Import ZArith List Bool String Lia.
From Verif Require Import Num State Binary.
Import ListNotations.
Open Scope Z_scope.

Section Population.
  Context {NO : NumOps}.

  (** A categorical gene: a tuple (start, end, step) of ints, a list of values, or
      an object of another type. *)
  Inductive cgen := CRange (a b step : Z) | CList (l : list gv) | COther.

  (** The class of the population together with its attribute gens (and, for the
      binary classes, the attributes filled by get_gens_params). *)
  Inductive gspec :=
  | GenBinary (is_gray : bool) (gens : list bgene) (bp : bparams)
  | GenCat (gens : list cgen)
  | GenOrd (a b k : Z).

  (** is_phenotype: base_population.py:12, binary_population.py:33,167.  The empty
      Gray copy lacks the flag until new_generation.py:93 shares the attributes, and
      nothing reads it in between. *)
  Definition is_phenotype (g : gspec) : bool :=
    match g with GenBinary _ _ _ => true | _ => false end.

  (** A population: the list of references and its attributes
      (base_population.py:11-16). *)
  Record pop := mkPop {
    members : list nat;
    is_sorted : bool;
    num_individ : Z;
    gspec_of : gspec;
    input_population : list (list gv)   (* None and [] are both falsy: [] *)
  }.
  Definition set_members l p := mkPop l (is_sorted p) (num_individ p) (gspec_of p) (input_population p).
  Definition set_sorted b p := mkPop (members p) b (num_individ p) (gspec_of p) (input_population p).
  Definition set_gspec g p := mkPop (members p) (is_sorted p) (num_individ p) g (input_population p).

  (** set_params: binary_population.py:26-37, cat_population.py:22-28.  The size is only
      checked for a truthy (non-empty) input population. *)
  Definition set_params (n : Z) (g : gspec) (inp : list (list gv)) : exn + pop :=
    if negb (Nat.eqb (List.length inp) 0) && (n <? Z.of_nat (List.length inp)) then inl (PyException "size of input population")
    else inr (mkPop [] false n g inp).

  (** The population constructor seeds the generator (base_population.py:18-21); so
      does get_empty_copy (binary_population.py:159-169, binary_gray_population.py:51-58,
      cat_population.py:64-71, order_cat_population.py:23-30), which calls it. *)
  Definition get_empty_copy : M (list nat) := do_seed ;;; ret [].

  (** base_population.py:69-78 reset_idx_individ *)
  Fixpoint reset_idx_loop (i : Z) (l : list nat) : M unit :=
    match l with
    | [] => ret tt
    | r :: l' => modify r (set_idx (Some i)) ;;; reset_idx_loop (i + 1) l'
    end.
  Definition reset_idx_individ (l : list nat) : M unit := reset_idx_loop 0 l.

  (** binary_population.py:120-127 get_phenotype; KeyError when the key is missing. *)
  Definition get_phenotype1 (g : gspec) (r : nat) : M unit :=
    ind <- get r ;;
    match phenotype ind with
    | None => raise KeyError
    | Some None =>
        match g with
        | GenBinary gray gens bp =>
            ph <- lift (decode_genotype gray gens bp (genotype ind)) ;;
            modify r (set_phenotype (Some (Some ph)))
        | _ => raise AttributeError
        end
    | Some (Some _) => ret tt
    end.
  Definition get_phenotype (g : gspec) (l : list nat) : M unit := miter (get_phenotype1 g) l.

  (** binary_population.py:151-157 swap.  When the phenotype is None the genotype
      would become None: not reached, get_phenotype runs just before. *)
  Definition swap1 (r : nat) : M unit :=
    ind <- get r ;;
    match phenotype ind with
    | None => raise KeyError
    | Some None => raise Unmodelled
    | Some (Some ph) =>
        modify r (fun i => set_phenotype (Some (Some (genotype ind))) (set_genotype ph i))
    end.
  Definition swap (l : list nat) : M unit := miter swap1 l.

  (** base_population.py:45-56 sort_by_dict on the key score or rank, ascending.
      The keys are read first (KeyError); keys of different types cannot be compared
      (TypeError), None cannot be compared with anything. *)
  Inductive skey := KScore | KRank.
  Definition key_of (k : skey) (i : individ) : option sval :=
    match k with KScore => Some (score i) | KRank => rank i end.
  Definition same_kind (v w : sval) : bool :=
    match v, w with SV1 _, SV1 _ => true | SVL _, SVL _ => true | _, _ => false end.
  Definition comparable (ks : list sval) : bool :=
    match ks with
    | [] => true
    | [_] => true
    | k :: _ => forallb (same_kind k) ks
    end.
  Definition sv_lt (v w : sval) : bool :=
    match sv_ltb v w with Some b => b | None => false end.
  Definition kv_lt (a b : sval * nat) : bool := sv_lt (fst a) (fst b).
  Definition read_key (k : skey) (r : nat) : M (sval * nat) :=
    ind <- get r ;;
    v <- lift_opt KeyError (key_of k ind) ;;
    ret (v, r).
  Definition sort_by_dict (k : skey) (l : list nat) : M (list nat) :=
    kv <- mmap (read_key k) l ;;
    if comparable (map fst kv) then ret (map snd (sort_by kv_lt kv))
    else raise TypeError.

  (** base_population.py:88-99 get_empty_individ: same keys as the first individual,
      every value None except feasible. *)
  Definition empty_like (i : individ) : individ :=
    mkInd [] (match phenotype i with None => None | Some _ => Some None end)
          SVNone SVNone true None (match rank i with None => None | Some _ => Some SVNone end).

  (** base_population.py:101-114 is_duplicate: fewer distinct genotypes than
      individuals. *)
  Fixpoint gen_mem (g : list gv) (l : list (list gv)) : bool :=
    match l with [] => false | h :: l' => gvs_eqb g h || gen_mem g l' end.
  Fixpoint has_dup (l : list (list gv)) : bool :=
    match l with [] => false | g :: l' => gen_mem g l' || has_dup l' end.
  Definition genotypes (l : list nat) : M (list (list gv)) :=
    mmap (fun r => i <- get r ;; ret (genotype i)) l.
  Definition is_duplicate (l : list nat) : M bool :=
    gs <- genotypes l ;; ret (has_dup gs).

  (** A user-supplied gene of a binary population as a number. *)
  Definition gv_num (g : gv) : exn + num :=
    match g with GNum x => inr x | GInt z => inr (nofZ z) | _ => inl TypeError end.
  Fixpoint gvs_num (l : list gv) : exn + list num :=
    match l with
    | [] => inr []
    | g :: l' => match gv_num g with
                 | inl e => inl e
                 | inr x => match gvs_num l' with inl e => inl e | inr xs => inr (x :: xs) end
                 end
    end.

  (** binary_population.py:78-86 get_generated_individ *)
  Fixpoint gen_binary_loop (is_gray : bool) (params : list (Z * Z)) : M (list bool) :=
    match params with
    | [] => ret []
    | (rnp, nb) :: ps =>
        v <- randint 0 rnp ;;
        bs <- lift (pop_index_to_binary is_gray v nb) ;;
        rest <- gen_binary_loop is_gray ps ;;
        ret (bs ++ rest)
    end.

  (** cat_population.py:30-44, one gene. *)
  Definition gen_cat1 (g : cgen) : M gv :=
    match g with
    | CRange a b stp => z <- randrange a (b + 1) stp ;; ret (GInt z)
    | CList l => choice l
    | COther => raise (PyException "unexpected data type of gen")
    end.

  (** get_generated_individ of the three classes (order_cat_population.py:12-21). *)
  Definition get_generated_individ (g : gspec) : M (list gv) :=
    match g with
    | GenBinary gray gens bp =>
        bs <- gen_binary_loop gray (combine (real_num_points bp) (num_bits bp)) ;;
        ret (bits_to_geno bs)
    | GenCat gens => mmap gen_cat1 gens
    | GenOrd a b k =>
        zs <- sample (zrange a (b + 1)) k ;; ret (map GInt zs)
    end.

  (** The genes before the first one that is not a number. *)
  Fixpoint num_prefix (l : list gv) : list num :=
    match l with
    | [] => []
    | g :: l' => match gv_num g with inl _ => [] | inr x => x :: num_prefix l' end
    end.

  (** The genotype of an input individual: float_individ_to_binary
      (binary_population.py:138-140) or a plain copy (cat_population.py:53-54).  A gene
      that is not a number makes the comparison of binary_population.py:98 raise
      TypeError, unless the length or an earlier gene was rejected before. *)
  Definition input_genotype (g : gspec) (x : list gv) : exn + list gv :=
    match g with
    | GenBinary gray gens bp =>
        match gvs_num x with
        | inl e =>
            if negb (Nat.eqb (List.length x) (List.length gens))
            then inl (PyException "incorrect len of input individ")
            else match encode_loop gray gens (real_step bp) (num_bits bp) (num_prefix x) with
                 | inl e' => inl e'
                 | inr _ => inl e
                 end
        | inr xs => match float_individ_to_binary gray gens bp xs with
                    | inl e => inl e
                    | inr bs => inr (bits_to_geno bs)
                    end
        end
    | _ => inr x
    end.

  (** The dict made by add_dict: binary_population.py:139,146, cat_population.py:54,60. *)
  Definition new_individ (g : gspec) (geno : list gv) : individ :=
    mkInd geno (if is_phenotype g then Some None else None) SVNone SVNone true None None.

  (** get_gens_params is run first by the binary classes (binary_population.py:135). *)
  Definition prepare (g : gspec) : exn + gspec :=
    match g with
    | GenBinary gray gens _ =>
        match get_gens_params gens with
        | inl e => inl e
        | inr bp => inr (GenBinary gray gens bp)
        end
    | _ => inr g
    end.

  (** fill: binary_population.py:129-149, cat_population.py:46-62. *)
  Definition fill (p : pop) : M pop :=
    g <- lift (prepare (gspec_of p)) ;;
    inp <- mmap (fun x => geno <- lift (input_genotype g x) ;; alloc (new_individ g geno))
                (input_population p) ;;
    gen <- mrepeat (Z.to_nat (num_individ p - Z.of_nat (List.length (input_population p))))
                   (geno <- get_generated_individ g ;; alloc (new_individ g geno)) ;;
    let l := inp ++ gen in
    (if is_phenotype g then get_phenotype g l else ret tt) ;;;
    reset_idx_individ l ;;;
    ret (set_members l (set_gspec g p)).
End Population.
