(** Populations: C09, C10. *)
From Coq Require Import String.
From Coq Require Import ZArith QArith List Bool Lia.
From Verif Require Import Spec Num State Binary Population ListLemmas Rnd Exec Laws CodingProofs CrossoverProofs
  PopulationProofs PropCoding Demo.
Import ListNotations.
Open Scope list_scope.
Open Scope Z_scope.

(** What an individual of a just-filled population looks like at position [i]. *)
Definition just_filled {NO : NumOps} (g : gspec) (i : nat) (x : individ) : Prop :=
  score x = SVNone /\ obj_score x = SVNone /\ feasible x = true /\ idx_individ x = Some (Z.of_nat i) /\
  match g with
  | GenBinary gray gens bp => exists ph, phenotype x = Some (Some ph) /\ decode_genotype gray gens bp (genotype x) = inr ph
  | _ => phenotype x = None
  end.

(** C09.  set_params rejects exactly the non-empty input populations larger than
    num_individ. *)
Theorem C09_set_params : forall {NO : NumOps} n g (inp : list (list gv)),
  (inp <> [] /\ n < Z.of_nat (length inp) <-> exists e, set_params n g inp = inl e).
Proof.
  intros. split.
  - intros [Hi Hn]. unfold set_params. destruct inp as [|x inp]; [congruence|]. cbn [length Nat.eqb negb andb] in *.
    destruct (Z.ltb_spec n (Z.of_nat (S (length inp)))); [eauto|lia].
  - intros [e H]. destruct (Z_le_gt_dec (Z.of_nat (length inp)) (Z.max 0 n)) as [L|L]; [rewrite set_params_fits in H by auto; discriminate|].
    split; [|lia]. intros ->. cbn [length] in L. lia.
Qed.
(** After set_params and fill: n different new individuals, nothing else touched; the
    user's individuals first and in order, the others generated. *)
Theorem C09_fill : forall {NO : NumOps} n g inp p s p' s', neqb (nofZ 0) nzero = true ->
  set_params n g inp = inr p -> fill p s = Ok p' s' ->
  Z.of_nat (length (members p')) = Z.max 0 n /\ NoDup (members p') /\
  (forall r, (r < next s)%nat -> heap s' r = heap s r /\ ~ In r (members p')) /\ log s' = log s /\
  forall i r, nth_error (members p') i = Some r ->
    just_filled (gspec_of p') i (heap s' r) /\
    match nth_error inp i with
    | Some x => input_genotype (gspec_of p') x = inr (genotype (heap s' r))
    | None => in_domain (gspec_of p') (genotype (heap s' r))
    end.
Proof.
  intros NO n g inp p s p' s' Z0 Hp H. apply set_params_inv in Hp. destruct Hp as [Hle ->].
  apply fill_ok in H. destruct H as (g' & Hg & E & N & X & K). cbn [num_individ input_population gspec_of] in *.
  rewrite E. cbn [members set_members gspec_of set_gspec]. split; [rewrite seq_length; lia|].
  split; [apply seq_NoDup|]. destruct X as (_ & L & _ & _ & X). split; [|split; [exact L|]].
  { intros r Hr. split; auto. intros C. apply in_seq in C. lia. }
  intros i r Hi. destruct (K i r) as (geno & <- & S & O & F & _ & Ix & P & G); [rewrite E; exact Hi|].
  split; [repeat split; auto|].
  destruct (nth_error inp i) as [x|]; auto. destruct G as (s1 & s2 & G). eapply generated_ok; eauto.
  destruct g' as [gray gens bp| |]; try exact I. cbn [binary_ok].
  destruct g as [gray0 gens0 bp0| |]; try (cbn in Hg; discriminate).
  destruct (prepared_usable _ _ _ _ Z0 Hg) as (bp' & Eg & U & _). inversion Eg; subst. exact U.
Qed.
(** For copied individuals the genotype is the user's list itself; for coded ones the
    phenotype is, coordinate by coordinate, the nearest grid point (exact arithmetic). *)
Theorem C09_copied : forall {NO : NumOps} g (x geno : list gv), is_phenotype g = false ->
  input_genotype g x = inr geno -> geno = x.
Proof. intros NO [gray gens bp| |] x geno H E; simpl in *; congruence. Qed.
Local Existing Instance Qops.
Theorem C09_coded : forall gray (gens : list qgene) bp0 n (inp : list (list Q)) p s p' s',
  Forall legal gens -> set_params n (GenBinary gray (gens : list bgene) bp0) (map (map GNum) inp) = inr p ->
  fill p s = Ok p' s' ->
  exists ns, Forall2 bits_for gens ns /\
  forall i r x, nth_error (members p') i = Some r -> nth_error inp i = Some x ->
    Forall2 in_bounds gens x /\
    exists ys, phenotype (heap s' r) = Some (Some (map GNum ys)) /\ Forall4 nearest_on_grid gens ns x ys.
Proof.
  intros gray gens bp0 n inp p s p' s' Hl Hp H.
  pose proof (C09_fill (NO := Qops) n _ _ p s p' s' eq_refl Hp H) as (_ & _ & _ & _ & K).
  apply set_params_inv in Hp. destruct Hp as [_ ->].
  apply fill_ok in H. destruct H as (g' & Hg & E & _). rewrite E in *. cbn [gspec_of set_members set_gspec members num_individ input_population] in *.
  cbn [prepare] in Hg. destruct (@get_gens_params Qops gens) as [e|bp] eqn:Eb; [discriminate|]. inversion Hg; subst g'.
  destruct (C05_decode_in_bounds gray gens Hl) as (bp' & ns & Eb' & En & Hn & _).
  assert (bp' = bp) by congruence. subst bp'. exists ns. split; auto.
  intros i r x Hi Hx. specialize (K i r Hi).
  pose proof (map_nth_error (map (@GNum Qops)) i inp Hx) as Hx'.
  match type of K with _ /\ match ?t with _ => _ end => replace t with (Some (map (@GNum Qops) x)) in K by (symmetry; exact Hx') end.
  destruct K as [(_ & _ & _ & _ & ph & P & D) I]. cbn [input_genotype] in I.
  assert (Gn : forall l : list Q, gvs_num (map GNum l) = inr l).
  { intros l. induction l as [|a l IH]; cbn [gvs_num map]; auto. cbn [gv_num]. unfold gvs_num in *. rewrite IH. reflexivity. }
  rewrite Gn in I. destruct (@float_individ_to_binary Qops gray gens bp x) as [e|bs] eqn:F; [discriminate|].
  assert (B : Forall2 in_bounds gens x).
  { destruct (C06_input_checked gray gens bp x Hl Eb) as [_ C].
    assert (Dc : Forall2 in_bounds gens x \/ ~ Forall2 in_bounds gens x).
    { clear. revert x. induction gens as [|[[lo hi] stp] gens IH]; intros [|a x]; [left; constructor|right; intros C; inversion C|right; intros C; inversion C|].
      destruct (Qlt_le_dec a lo) as [L|L]; [right; intros C; inversion C as [|? ? ? ? B0]; subst; destruct B0; apply Qlt_not_le in L; auto|].
      destruct (Qlt_le_dec hi a) as [M|M]; [right; intros C; inversion C as [|? ? ? ? B0]; subst; destruct B0; apply Qlt_not_le in M; auto|].
      destruct (IH x) as [I|I]; [left; constructor; auto; split; auto|right; intros C; inversion C; auto]. }
    destruct Dc as [Dc|Dc]; auto. destruct (C Dc) as [tag C']. congruence. }
  split; auto. destruct (C04_round_trip gray gens x Hl B) as (bp' & ns' & bs' & ys & Eb2 & En2 & _ & Ef & _ & Ed & Q4).
  assert (bp' = bp) by congruence. subst bp'. assert (ns' = ns) by congruence. subst ns'.
  assert (bs' = bs) by congruence. subst bs'. exists ys. split; [|rewrite <- En; exact Q4]. rewrite P. do 2 f_equal.
  inversion I as [I']. rewrite <- I' in D. unfold decode_genotype in D. rewrite geno_bits_id, Ed in D. inversion D. reflexivity.
Qed.
(** fill never raises on a usable specification whose input individuals can be coded. *)
Theorem C09_never_raises : forall {NO : NumOps} n g inp p g' s e, neqb (nofZ 0) nzero = true ->
  set_params n g inp = inr p -> prepare g = inr g' ->
  match g' with GenBinary _ _ _ => True | _ => spec_usable g' end ->
  Forall (fun x => exists geno, input_genotype g' x = inr geno /\ (is_phenotype g' = true -> in_domain g' geno)) inp ->
  fill p s <> Err e.
Proof.
  intros NO n g inp p g' s e Z0 Hp Hg U Hin. apply set_params_inv in Hp. destruct Hp as [Hle ->].
  apply (fill_safe _ s g'); auto.
  - destruct g as [gray gens bp| |]; cbn in Hg; try (inversion Hg; subst; exact U).
    destruct (prepared_usable gray gens bp _ Z0 Hg) as (bp' & -> & U' & _). exact U'.
  - intros gray gens bp ->. destruct g as [gray0 gens0 bp0| |]; try (cbn in Hg; discriminate).
    destruct (prepared_usable _ _ _ _ Z0 Hg) as (bp' & Eg & _ & ps & -> & F). inversion Eg; subst. eauto.
Qed.

(** C10.  The set of genotypes that can be generated is exactly the declared domain. *)
Theorem C10_categorical : forall {NO : NumOps} (gens : list cgen), Forall pool_usable gens ->
  possible (get_generated_individ (GenCat gens)) (Forall2 gene_in gens).
Proof. intros NO gens H. exact (generated_possible (GenCat gens) H). Qed.
Theorem C10_ordered : forall {NO : NumOps} a b k, 0 <= k <= Z.max 0 (b - a + 1) ->
  possible (get_generated_individ (GenOrd a b k))
    (fun geno => exists zs, geno = map GInt zs /\ Z.of_nat (length zs) = k /\ NoDup zs /\ Forall (fun z => a <= z <= b) zs).
Proof. intros NO a b k H. exact (generated_possible (GenOrd a b k) H). Qed.
Theorem C10_binary : forall {NO : NumOps} gray gens bp0 g, neqb (nofZ 0) nzero = true ->
  prepare (GenBinary gray gens bp0) = inr g ->
  exists bp, get_gens_params gens = inr bp /\ Forall (fun n => 1 <= n) (num_bits bp) /\
  possible (get_generated_individ g)
    (fun geno => exists bs, geno = map GBit bs /\ Z.of_nat (length bs) = zsum (num_bits bp)).
Proof.
  intros NO gray gens bp0 g Z0 H. destruct (prepared_usable gray gens bp0 g Z0 H) as (bp & -> & U & _).
  exists bp. cbn [prepare] in H. destruct (get_gens_params gens); [discriminate|]. inversion H; subst.
  split; auto. split; [exact (proj1 U)|]. exact (generated_possible _ U).
Qed.
(** What happens outside: too many values requested, empty pools. *)
Theorem C10_unusable : forall {NO : NumOps} s,
  (forall a b k, k < 0 \/ Z.max 0 (b - a + 1) < k -> get_generated_individ (GenOrd a b k) s = Err ValueError) /\
  (forall p, ~ pool_usable p -> gen_cat1 p s = Err (match p with CRange _ _ _ => ValueError | CList _ => IndexError | COther => PyException "unexpected data type of gen" end)).
Proof.
  intros NO s. split.
  - intros a b k H. cbn [get_generated_individ]. unfold bind. rewrite sample_error; auto. rewrite zrange_length_Z. lia.
  - intros [a b stp|l|] H; cbn [pool_usable gen_cat1] in *; [| |reflexivity].
    + unfold bind, randrange. destruct (stp =? 0) eqn:E0; [reflexivity|]. apply Z.eqb_neq in E0.
      destruct (range_len a (b + 1) stp <=? 0) eqn:E1; [reflexivity|]. exfalso. apply Z.leb_gt in E1.
      apply range_len_pos in E1; auto. destruct (0 <? stp) eqn:E2; [apply Z.ltb_lt in E2|apply Z.ltb_ge in E2]; apply H; lia.
    + destruct l as [|d l]; [reflexivity|]. exfalso. apply H. discriminate.
Qed.

(** Examples. *)
Definition ex_spec : gspec := GenCat [CRange 1 7 2; CList [GStr "a"; GStr "b"]; CRange 0 0 1].
(** Two user individuals among four; draws select the remaining genes. *)
Example C09_example : exists p, set_params 4 ex_spec [[GInt 3; GStr "b"; GInt 0]; [GInt 9]] = inr p /\
  observe (fun p' s' => (members p', map (fun r => (genotype (heap s' r), idx_individ (heap s' r))) (members p')))
    (fill p (world [ind [] (q 1)] [3; 1; 0; 0; 0; 5])) =
  Some ([1; 2; 3; 4]%nat, [([GInt 3; GStr "b"; GInt 0], Some 0); ([GInt 9], Some 1);
        ([GInt 7; GStr "b"; GInt 0], Some 2); ([GInt 1; GStr "a"; GInt 0], Some 3)]).
Proof. eexists. split; [reflexivity|run]. Qed.
Example C09_coded_example : exists p,
  set_params 2 (GenBinary true (ex_gens : list bgene) bparams0) (map (map GNum) [ex_vec]) = inr p /\
  Forall legal ex_gens /\ observe (fun p' s' => members p') (fill p (world [] [3; 1; 2])) = Some [0; 1]%nat.
Proof. eexists. split; [reflexivity|]. split; [exact ex_gens_legal|run]. Qed.
Example C10_example : spec_usable ex_spec /\ spec_usable (GenOrd 3 8 4) /\
  in_domain ex_spec [GInt 5; GStr "a"; GInt 0] /\
  value (get_generated_individ (GenOrd 3 8 4) (world [] [0; 0; 0; 0])) = Some (ints [3; 4; 5; 6]) /\
  value (get_generated_individ (GenOrd 3 8 4) (world [] [5; 0; 3; 1])) <> Some (ints [3; 4; 5; 6]).
Proof.
  split; [repeat constructor; cbn; try lia; discriminate|]. split; [cbn; lia|]. split.
  { repeat constructor; cbn; auto.
    - exists 5, 2. repeat split; lia.
    - exists 0, 0. repeat split; lia. }
  split; [run|].
  intros C. assert (E2 : match value (get_generated_individ (GenOrd 3 8 4) (world [] [5; 0; 3; 1])) with Some (GInt x :: _) => x | _ => 0 end = 8) by run.
  rewrite C in E2. discriminate.
Qed.
Print Assumptions C09_set_params.
Print Assumptions C09_fill.
Print Assumptions C09_copied.
Print Assumptions C09_coded.
Print Assumptions C09_never_raises.
Print Assumptions C10_categorical.
Print Assumptions C10_ordered.
Print Assumptions C10_binary.
Print Assumptions C10_unusable.
