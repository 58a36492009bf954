(** fill called on a population that is not empty (a second fill, or a fill after
    set_params on a population with members).  The package calls fill once per population;
    populations of a CollectorGA are in the hands of the caller. *)
From Coq Require Import ZArith List.
From Verif Require Import Num State Binary Population.
Import ListNotations.
Open Scope Z_scope.

Section Refill.
  Context {NO : NumOps}.
  (** binary_population.py:51-63 get_gens_params appends to the lists it finds. *)
  Definition prepare_more (g : gspec) : exn + gspec :=
    match g with
    | GenBinary gray gens bp =>
        match gen_params_loop bp gens with
        | inl e => inl e
        | inr bp' => inr (GenBinary gray gens bp')
        end
    | _ => inr g
    end.
  (** get_generated_individ reads the parameters at the positions of the genes
      (binary_population.py:83-85): the leading ones. *)
  Definition leading (g : gspec) : gspec :=
    match g with
    | GenBinary gray gens bp =>
        let n := List.length gens in
        GenBinary gray gens (mkBP (firstn n (num_bits bp)) (firstn n (real_num_points bp))
                                  (firstn n (real_step bp)) (firstn (S n) (idx_bits bp)))
    | _ => g
    end.
  (** fill: binary_population.py:129-149, cat_population.py:46-62; add_dict appends to the
      members that are there, get_phenotype and reset_idx_individ go over all of them. *)
  Definition fill_more (p : pop) : M pop :=
    g <- lift (prepare_more (gspec_of p)) ;;
    inp <- mmap (fun x => geno <- lift (input_genotype g x) ;; alloc (new_individ g geno))
                (input_population p) ;;
    gen <- mrepeat (Z.to_nat (num_individ p - Z.of_nat (List.length (input_population p))))
                   (geno <- get_generated_individ (leading g) ;; alloc (new_individ g geno)) ;;
    let l := members p ++ inp ++ gen in
    (if is_phenotype g then get_phenotype g l else ret tt) ;;;
    reset_idx_individ l ;;;
    ret (set_members l (set_gspec g p)).
End Refill.
