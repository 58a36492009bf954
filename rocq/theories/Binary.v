(** BinaryPopulation and BinaryGrayPopulation: the pure coding functions
    (populations/binary_population.py, populations/binary_gray_population.py). *)
From Coq Require Import ZArith List Bool String Lia.
From Verif Require Import Num State.
Import ListNotations.
Open Scope Z_scope.

(** binary_population.py:39-49 get_real_number_of_points.  The while loop runs on
    fuel; [None] = out of fuel (excluded by theorem C01). *)
Fixpoint grnp_loop (fuel : nat) (n num_points : Z) : option Z :=
  match fuel with
  | O => None
  | S f => if (2 ^ n - 1) <? num_points then grnp_loop f (n + 1) num_points else Some n
  end.
Definition get_real_number_of_points (num_points : Z) : option (Z * Z) :=
  match grnp_loop (S (Z.to_nat (Z.log2 num_points + 1))) 0 num_points with
  | Some n => Some (n, 2 ^ n - 1)
  | None => None
  end.

(** bin(value)[2:] for value >= 0, most significant bit first. *)
Fixpoint pos_bits (p : positive) : list bool :=
  match p with
  | xH => [true]
  | xO q => pos_bits q ++ [false]
  | xI q => pos_bits q ++ [true]
  end.
Definition bin_str (value : Z) : list bool :=
  match value with Zpos p => pos_bits p | _ => [false] end.

(** binary_population.py:65-76 index_to_binary.  A negative value would make bin()
    produce a sign; the model stops there (Unmodelled), no caller passes one. *)
Definition index_to_binary (value num_bits : Z) : exn + list bool :=
  if value <? 0 then inl Unmodelled
  else
    let bin_string := bin_str value in
    let len := Z.of_nat (List.length bin_string) in
    if num_bits <? len then inl (PyException "cannot convert to binary")
    else if len <? num_bits then inr (repeat false (Z.to_nat (num_bits - len)) ++ bin_string)
    else inr bin_string.

(** binary_gray_population.py:5-12 *)
Definition get_gray_value (value : Z) : Z := Z.lxor value (Z.shiftr value 1).

(** binary_gray_population.py:14-25.  Fuel: one iteration per bit. *)
Fixpoint gray_loop (fuel : nat) (real_value gray_value : Z) : option Z :=
  match fuel with
  | O => None
  | S f => if 0 <? gray_value
           then gray_loop f (Z.lxor real_value gray_value) (Z.shiftr gray_value 1)
           else Some real_value
  end.
Definition get_index_from_gray (gray_value : Z) : option Z :=
  gray_loop (S (Z.to_nat (Z.log2 gray_value + 1))) 0 gray_value.

(** binary_gray_population.py:27-34 index_to_binary of the Gray population, and the
    choice between the two classes. *)
Definition pop_index_to_binary (is_gray : bool) (value num_bits : Z) : exn + list bool :=
  if is_gray then index_to_binary (get_gray_value value) num_bits
  else index_to_binary value num_bits.

(** int(s, 2) on a string of 0 and 1; ValueError on the empty string. *)
Definition bits_val (bs : list bool) : Z :=
  fold_left (fun acc (b : bool) => 2 * acc + (if b then 1 else 0)) bs 0.
Definition int_base2 (bs : list bool) : exn + Z :=
  match bs with [] => inl ValueError | _ => inr (bits_val bs) end.

Section Binary.
  Context {NO : NumOps}.

  (** A gene (start, end, step). *)
  Definition bgene := (num * num * num)%type.
  Definition glo (g : bgene) : num := fst (fst g).
  Definition ghi (g : bgene) : num := snd (fst g).
  Definition gstep (g : bgene) : num := snd g.

  (** x / y: ZeroDivisionError when y == 0. *)
  Definition py_div (x y : num) : exn + num :=
    if neqb y nzero then inl ZeroDivisionError else inr (ndiv_raw x y).

  (** The attributes filled by get_gens_params. *)
  Record bparams := mkBP {
    num_bits : list Z;
    real_num_points : list Z;
    real_step : list num;
    idx_bits : list Z
  }.
  (** binary_population.py:34-37 *)
  Definition bparams0 : bparams := mkBP [] [] [] [0].

  (** binary_population.py:57-63, one iteration of the loop. *)
  Definition gen_params_step (bp : bparams) (gen : bgene) : exn + bparams :=
    let gen_range := nabs (nsub (ghi gen) (glo gen)) in
    match py_div gen_range (gstep gen) with
    | inl e => inl e
    | inr q =>
        match ntrunc q with
        | None => inl (int_error q)
        | Some num_points =>
            match get_real_number_of_points num_points with
            | None => inl Unmodelled
            | Some (nb, rnp) =>
                match py_div gen_range (nofZ (2 ^ nb - 1)) with
                | inl e => inl e
                | inr stp =>
                    inr (mkBP (num_bits bp ++ [nb]) (real_num_points bp ++ [rnp])
                              (real_step bp ++ [stp])
                              (idx_bits bp ++ [last (idx_bits bp) 0 + nb]))
                end
            end
        end
    end.
  Fixpoint gen_params_loop (bp : bparams) (gens : list bgene) : exn + bparams :=
    match gens with
    | [] => inr bp
    | g :: gs => match gen_params_step bp g with
                 | inl e => inl e
                 | inr bp' => gen_params_loop bp' gs
                 end
    end.
  (** binary_population.py:51-63 get_gens_params *)
  Definition get_gens_params (gens : list bgene) : exn + bparams := gen_params_loop bparams0 gens.

  (** binary_population.py:97-102, the loop over the genes of an input individual. *)
  Fixpoint encode_loop (is_gray : bool) (gens : list bgene) (steps : list num) (nbs : list Z)
           (float_gens : list num) : exn + list bool :=
    match float_gens with
    | [] => inr []
    | v :: vs =>
        match gens, steps, nbs with
        | g :: gens', stp :: steps', nb :: nbs' =>
            if nltb v (glo g) || nltb (ghi g) v then inl (PyException "gen out of range")
            else match py_div (nsub v (glo g)) stp with
                 | inl e => inl e
                 | inr q =>
                     match nround q with
                     | None => inl (int_error q)
                     | Some step_idx =>
                         match pop_index_to_binary is_gray step_idx nb with
                         | inl e => inl e
                         | inr bs =>
                             match encode_loop is_gray gens' steps' nbs' vs with
                             | inl e => inl e
                             | inr rest => inr (bs ++ rest)
                             end
                         end
                     end
                 end
        | _, _, _ => inl IndexError
        end
    end.
  (** binary_population.py:88-104 float_individ_to_binary *)
  Definition float_individ_to_binary (is_gray : bool) (gens : list bgene) (bp : bparams)
             (float_gens : list num) : exn + list bool :=
    if negb (Nat.eqb (List.length float_gens) (List.length gens))
    then inl (PyException "incorrect len of input individ")
    else encode_loop is_gray gens (real_step bp) (num_bits bp) float_gens.

  (** binary_population.py:114-117 and binary_gray_population.py:44-48: one gene. *)
  Definition decode_gene (is_gray : bool) (g : bgene) (stp : num) (bs : list bool) : exn + num :=
    match int_base2 bs with
    | inl e => inl e
    | inr index_point =>
        match (if is_gray then get_index_from_gray index_point else Some index_point) with
        | None => inl Unmodelled
        | Some i => inr (nadd (glo g) (nmul (nofZ i) stp))
        end
    end.
  Fixpoint decode_loop (is_gray : bool) (gens : list bgene) (steps : list num) (idxs : list Z)
           (genotype_str : list bool) : exn + list num :=
    match gens with
    | [] => inr []
    | g :: gens' =>
        match steps, idxs with
        | stp :: steps', a :: ((b :: _) as idxs') =>
            match decode_gene is_gray g stp (slice genotype_str a b) with
            | inl e => inl e
            | inr x =>
                match decode_loop is_gray gens' steps' idxs' genotype_str with
                | inl e => inl e
                | inr xs => inr (x :: xs)
                end
            end
        | _, _ => inl IndexError
        end
    end.
  (** binary_population.py:106-118 / binary_gray_population.py:36-49
      binary_individ_to_float, on the joined string. *)
  Definition binary_individ_to_float (is_gray : bool) (gens : list bgene) (bp : bparams)
             (bits : list bool) : exn + list num :=
    decode_loop is_gray gens (real_step bp) (idx_bits bp) bits.

  (** Genotypes are lists of one-character strings. *)
  Definition bits_to_geno (bs : list bool) : list gv := map GBit bs.
  Fixpoint geno_to_bits (g : list gv) : option (list bool) :=
    match g with
    | [] => Some []
    | GBit b :: g' => match geno_to_bits g' with Some bs => Some (b :: bs) | None => None end
    | _ :: _ => None
    end.
  Definition is_string (x : gv) : bool := match x with GBit _ | GStr _ => true | _ => false end.
  (** ''.join(genotype) followed by int(.., 2): a number in the list is a TypeError of
      join.  Simplification: strings other than the two bits, which int() would parse or
      reject, are not followed (Unmodelled); no operator puts one into a binary genotype. *)
  Definition decode_genotype (is_gray : bool) (gens : list bgene) (bp : bparams)
             (g : list gv) : exn + list gv :=
    match geno_to_bits g with
    | None => inl (if forallb is_string g then Unmodelled else TypeError)
    | Some bs => match binary_individ_to_float is_gray gens bp bs with
                 | inl e => inl e
                 | inr xs => inr (map GNum xs)
                 end
    end.
End Binary.
