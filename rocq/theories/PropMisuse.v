(** Statement C78: what malformed data raises. *)
From Coq Require Import String.
From Coq Require Import ZArith QArith List Bool Lia.
From Verif Require Import FitnessProofs Spec Num State Binary Population GaData Penalty Fitness Selection Crossover Mutation
  ListLemmas Laws BinaryProofs CodingProofs PopulationProofs Rnd Exec CrossoverProofs MutationProofs SelectionProofs Fuelless Demo.
Import ListNotations.
Open Scope list_scope.
Open Scope Z_scope.

Section C78.
  Context {NO : NumOps}.
  (** *** Genotypes *)
  Theorem C78_not_a_bit : forall gray gens bp g x, In x g -> (exists y, x = GNum y) \/ (exists z, x = GInt z) -> decode_genotype gray gens bp g = inl TypeError.
  Proof.
    intros gray gens bp g x I N. unfold decode_genotype.
    assert (E : geno_to_bits g = None).
    { induction g as [|y g IH]; [destruct I|]. cbn [geno_to_bits]. destruct y as [b| | |]; try reflexivity.
      destruct I as [<-|I]; [destruct N as [(y & N)|(y & N)]; discriminate N|]. rewrite IH; auto. }
    rewrite E. replace (forallb is_string g) with false; [reflexivity|]. symmetry. apply not_true_iff_false. intros F.
    rewrite forallb_forall in F. specialize (F x I). destruct N as [(y & ->)|(y & ->)]; discriminate F.
  Qed.
  Lemma slice_outside : forall {A} (l : list A) a b, Z.of_nat (List.length l) <= a -> slice l a b = [].
  Proof.
    intros A l a b H. unfold slice, slice_pos. destruct (Z.ltb_spec a 0); [lia|]. rewrite skipn_all2 by lia. apply firstn_nil.
  Qed.
  Lemma slice_some : forall {A} (l : list A) a b, 0 <= a < Z.of_nat (List.length l) -> a < b -> slice l a b <> [].
  Proof.
    intros A l a b H Hb E. apply (f_equal (@List.length A)) in E. unfold slice, slice_pos in E. rewrite firstn_length, skipn_length in E. cbn in E.
    destruct (Z.ltb_spec a 0); [lia|]. destruct (Z.ltb_spec b 0); lia.
  Qed.
  Lemma decode_some : forall gray g stp bs, bs <> [] -> exists x, decode_gene gray g stp bs = inr x.
  Proof.
    intros gray g stp bs N. destruct (@code_surj gray (Z.of_nat (List.length bs)) bs) as (i & Hi & E); [destruct bs; [congruence|cbn; lia]|reflexivity|].
    destruct (@code_ok NO gray i (Z.of_nat (List.length bs))) as (bs' & E' & _ & D); [destruct bs; [congruence|cbn; lia]|lia|].
    rewrite E in E'. inversion E'; subst. eauto.
  Qed.
  Lemma decode_short : forall gray (bs : list bool) gens steps ns a, List.length gens = List.length ns -> List.length steps = List.length ns -> Forall (fun n => 1 <= n) ns -> ns <> [] -> 0 <= a ->
    match decode_loop gray gens steps (a :: psums a ns) bs with
    | inl e => e = ValueError /\ Z.of_nat (List.length bs) <= a + zsum (removelast ns)
    | inr ys => List.length ys = List.length gens /\ a + zsum (removelast ns) < Z.of_nat (List.length bs)
    end.
  Proof.
    intros gray bs gens. induction gens as [|g gens IH]; intros [|stp steps] [|n ns] a L1 L2 F N Ha; try discriminate; try congruence.
    inversion F as [|? ? Hn F']; subst. cbn [decode_loop psums].
    destruct (Z_le_gt_dec (Z.of_nat (List.length bs)) a) as [Le|Gt].
    - rewrite slice_outside by auto. cbn. split; [reflexivity|].
      assert (0 <= zsum (removelast (n :: ns))); [|cbn in *; lia]. clear - F. generalize (n :: ns) F. intros l Fl. induction Fl as [|x l Hx Fl IH]; cbn; [lia|]. destruct l; cbn in *; lia.
    - destruct (decode_some gray g stp (slice bs a (a + n))) as (x & ->); [apply slice_some; lia|].
      destruct ns as [|m ns].
      + destruct gens; [|discriminate]. cbn [decode_loop]. split; [reflexivity|]. cbn. lia.
      + specialize (IH steps (m :: ns) (a + n)). specialize (IH ltac:(cbn in *; lia) ltac:(cbn in *; lia) F' ltac:(discriminate) ltac:(lia)).
        change (removelast (n :: m :: ns)) with (n :: removelast (m :: ns)). cbn [zsum]. cbn [psums] in *.
        destruct (decode_loop gray gens steps _ bs) as [e|ys].
        * destruct IH as [-> IH]. split; [auto|lia].
        * destruct IH as [IH1 IH]. split; [cbn [List.length]; lia|lia].
  Qed.
  (** Bits beyond the last gene are not read. *)
  Lemma decode_more : forall gray bs more gens steps ns a, Forall (fun n => 1 <= n) ns -> 0 <= a -> a + zsum ns <= Z.of_nat (List.length bs) ->
    decode_loop gray gens steps (a :: psums a ns) (bs ++ more) = decode_loop gray gens steps (a :: psums a ns) bs.
  Proof.
    intros gray bs more gens. induction gens as [|g gens IH]; intros steps ns a F Ha L; [reflexivity|]. destruct steps as [|stp steps]; [reflexivity|]. destruct ns as [|n ns]; [reflexivity|].
    inversion F as [|? ? Hn F']; subst. cbn [decode_loop psums zsum] in *.
    assert (P : 0 <= zsum ns) by (clear - F'; induction F'; cbn; lia).
    assert (E : slice (bs ++ more) a (a + n) = slice bs a (a + n)).
    { rewrite !slice_in by (rewrite ?app_length; lia). rewrite skipn_app. rewrite firstn_app, skipn_length. replace (_ - _ - (_ - _))%nat with 0%nat by lia. apply app_nil_r. }
    rewrite E. destruct (decode_gene gray g stp _); [reflexivity|]. rewrite IH; auto; lia.
  Qed.
  (** *** A scalar objective in a multi-objective fitness *)
  Definition scalar_only (o : objfun) : Prop :=
    match o with
    | Obj1 f => forall k g, exists x, f k g = inr (OScalar x)
    | Obj12 f f2 => (forall k g, exists x, f k g = inr (OScalar x)) /\ forall k d g, exists x, f2 k d g = inr (OScalar x)
    | Obj2 _ => False
    end.
  Lemma scalar_call : forall o genes s, scalar_only o -> call_list o genes s = Err TypeError.
  Proof.
    intros o genes s H. unfold call_list, call1, call_logged, bind. destruct o as [f|f|f f2]; [|contradiction|destruct H as [H _]]; destruct (H (List.length (log s)) genes) as (x & ->); reflexivity.
  Qed.
  Lemma ranks_set : forall l s, exists h, miter (fun r => modify r (set_rank (Some (SV1 none_)))) l s = Ok tt (set_heap h s) /\
    (forall r, phenotype (h r) = phenotype (heap s r) /\ genotype (h r) = genotype (heap s r) /\ score (h r) = score (heap s r)).
  Proof.
    induction l as [|r l IH]; intros s.
    - exists (heap s). split; [destruct s; reflexivity|auto].
    - cbn [miter]. unfold bind at 1. unfold modify at 1. set (s1 := set_heap _ s). destruct (IH s1) as (h & E & H). exists h. split; [rewrite E; reflexivity|].
      intros r'. destruct (H r') as (H1 & H2 & H3). rewrite H1, H2, H3. unfold s1. cbn [heap set_heap]. unfold upd. destruct (Nat.eqb_spec r' r) as [->|N]; destruct (heap s r); auto.
  Qed.
  Theorem C78_ranking : forall o x y l s ph, scalar_only o -> phenotype (heap s x) = Some (Some ph) -> assign_ranks o (x :: y :: l) s = Err TypeError.
  Proof.
    intros o x y l s ph Ho Hx. unfold assign_ranks, bind. destruct (ranks_set (x :: y :: l) s) as (h & -> & H). cbn [compare_all miter]. unfold bind, compare_pair, inferior, bind, phen_of, bind, get.
    cbn [heap set_heap]. destruct (H x) as (-> & _). rewrite Hx. cbn [ret]. unfold ret. rewrite scalar_call; auto.
  Qed.
  Lemma phenotypes_known : forall g l s, Forall (fun r => exists ph, phenotype (heap s r) = Some (Some ph)) l -> get_phenotype g l s = Ok tt s.
  Proof.
    intros g l s F. unfold get_phenotype. induction F as [|r l (ph & Hr) F IH]; [reflexivity|]. cbn [miter]. unfold bind at 1. unfold get_phenotype1, bind, get. rewrite Hr. exact IH.
  Qed.
  Lemma scalar_evaluate : forall f gen best r s, is_multi_kind (fkind f) = true -> scalar_only (obj_function f) -> score (heap s r) = SVNone -> evaluate f gen best r s = Err TypeError.
  Proof.
    intros f gen best r s K Ho Hs. unfold evaluate, bind, get. rewrite Hs. cbn [is_none]. unfold calc_obj_func, bind.
    assert (C : forall v s', lift (check_input f (OScalar v)) s' = Err TypeError) by (intros; unfold check_input; rewrite K; reflexivity).
    assert (C1 : exists v s', call1 (obj_function f) (genotype (heap s r)) s = Ok (OScalar v) s').
    { unfold call1, call_logged. destruct (obj_function f) as [f0|f0|f0 f2]; [|contradiction|destruct Ho as [Ho _]]; destruct (Ho (List.length (log s)) (genotype (heap s r))) as (x & ->); eauto. }
    destruct C1 as (v1 & s1 & E1). destruct (input_data f) as [d|]; [|rewrite E1, C; reflexivity]. destruct (truthy d); [|rewrite E1, C; reflexivity].
    unfold call2, call_logged. destruct (obj_function f) as [f0|f0|f0 f2]; [reflexivity|contradiction|]. destruct (proj2 Ho (List.length (log s)) d (genotype (heap s r))) as (x & ->). rewrite C. reflexivity.
  Qed.
  (** VEGA's and FFGA's fitness on a fresh decoded population: TypeError. *)
  Theorem C78_scalar_objective : forall f gd s, is_multi_kind (fkind f) = true -> scalar_only (obj_function f) ->
    is_phenotype (gspec_of (population gd)) = true -> members (population gd) <> [] ->
    Forall (fun r => (exists ph, phenotype (heap s r) = Some (Some ph)) /\ score (heap s r) = SVNone) (members (population gd)) ->
    fitness_execute f gd s = Err TypeError.
  Proof.
    intros f gd s K Ho Hp N F. unfold fitness_execute. rewrite K, Hp. set (l := members (population gd)) in *.
    assert (F1 : Forall (fun r => exists ph, phenotype (heap s r) = Some (Some ph)) l) by (eapply Forall_impl; [|exact F]; intros r [H _]; exact H).
    unfold bind at 1. rewrite (phenotypes_known _ l s F1). destruct l as [|x [|y l']] eqn:El; [congruence| |].
    - unfold bind at 1. unfold assign_ranks, bind at 1. destruct (ranks_set [x] s) as (h & -> & H). cbn [compare_all miter]. unfold bind, ret.
      unfold base_fitness_execute. fold l. rewrite Hp, El. unfold bind. inversion F as [|? ? [(ph & Hx) Hs] _]; subst. destruct (H x) as (H1 & H2 & H3).
      rewrite phenotypes_known by (constructor; [exists ph; cbn [heap set_heap]; congruence|constructor]).
      unfold swap. cbn [miter]. unfold swap1, bind, get. cbn [heap set_heap]. rewrite H1, Hx. unfold modify, ret. rewrite scalar_evaluate; auto.
      cbn [heap set_heap]. unfold upd. rewrite Nat.eqb_refl. destruct (h x). cbn in *. congruence.
    - unfold bind at 1. inversion F1 as [|? ? (ph & Hx) _]; subst. rewrite (C78_ranking _ x y l' s ph); auto.
  Qed.

  (** *** VEGA's selections on scores that are not lists *)
  Definition scalar_scores (s : st) (l : list nat) : Prop := forall r, In r l -> forall v, score (heap s r) <> SVL v.
  Lemma sv_at_scalar : forall v k s, (forall l, v <> SVL l) -> sv_at v k s = Err TypeError.
  Proof. intros v k s H. destruct v; try reflexivity. destruct (H l eq_refl). Qed.
  Theorem C78_vega_tournament : forall fuel m k t gd s, let l := members (population gd) in scalar_scores s l -> 2 <= t <= Z.of_nat (List.length l) ->
    (exists n, get_total_num_parents m gd s = Ok n s /\ 0 < n) -> tournament fuel m (Some k) t gd s = Err TypeError.
  Proof.
    intros fuel m k t gd s l Sc Ht (n & En & Hn). unfold tournament, bind at 1. rewrite En.
    destruct (Z.to_nat n) as [|n'] eqn:E; [lia|]. cbn [mrepeat]. fold l.
    assert (R : run_tournament (Some k) t l s = Err TypeError).
    { unfold run_tournament, bind. destruct (proj1 (possible_sample (zrange 0 (Z.of_nat (List.length l))) t ltac:(rewrite zrange_length_Z; lia)) s) as (tr & u & -> & P).
      pose proof (picks_length _ _ _ P) as L. pose proof (picks_incl _ _ _ P) as Inc. destruct tr as [|a [|b tr]]; try (cbn in L; lia).
      assert (Pa : exists ra, py_nth l a = Some ra /\ In ra l /\ exists rb, py_nth l b = Some rb /\ In rb l).
      { assert (Ha := Inc a (or_introl eq_refl)). assert (Hb := Inc b (or_intror (or_introl eq_refl))). rewrite in_zrange in Ha, Hb.
        rewrite !ListLemmas.py_nth_in by lia. destruct (nth_error l (Z.to_nat a)) as [ra|] eqn:Ea; [|apply nth_error_None in Ea; lia]. destruct (nth_error l (Z.to_nat b)) as [rb|] eqn:Eb; [|apply nth_error_None in Eb; lia].
        exists ra. split; auto. split; [eapply nth_error_In; eauto|]. exists rb. split; auto. eapply nth_error_In; eauto. }
      destruct Pa as (ra & Ea & Ia & rb & Eb & Ib). unfold get_best, bind, lift_opt. rewrite Ea. cbn [get_best_loop]. unfold bind, lift_opt. rewrite Eb. unfold get, better, bind. rewrite sv_at_scalar; [reflexivity|exact (Sc rb Ib)]. }
    unfold bind, tournament_pair, bind. rewrite R. reflexivity.
  Qed.
  Theorem C78_vega_weight : forall k r s, (forall v, score (heap s r) <> SVL v) -> weight KScore (Some k) r s = Err TypeError.
  Proof. intros k r s H. unfold weight, bind, get, lift_opt. cbn [key_of]. rewrite sv_at_scalar; auto. Qed.

  (** *** Printing *)
  Theorem C78_print : forall gd s,
    match best_solution gd with
    | BNone => print_best_solution gd s = Err TypeError
    | BSingle _ _ => print_best_solution gd s = Ok tt s
    | BPareto set None => print_best_solution gd s = Err KeyError
    | BPareto set (Some _) => if existsb (fun i => match phenotype i with None => true | Some _ => false end) set then print_best_solution gd s = Err KeyError else print_best_solution gd s = Ok tt s
    end.
  Proof.
    intros gd s. unfold print_best_solution. destruct (best_solution gd) as [|i g|set [n|]]; try reflexivity.
    induction set as [|i set IH]; [reflexivity|]. cbn [existsb miter]. destruct (phenotype i) as [p|]; [|reflexivity]. cbn [orb]. unfold bind, ret. exact IH.
  Qed.
  (** *** Populations that do not fit *)
  Theorem C78_empty : forall k gd s, members (population gd) = [] -> crossover_execute k gd s = Err IndexError.
  Proof. intros k gd s E. unfold crossover_execute. rewrite E. reflexivity. Qed.
  (** Ranking individuals that have no phenotype entry (populations that are not binary). *)
  Theorem C78_no_phenotype : forall o x y l s, phenotype (heap s x) = None -> assign_ranks o (x :: y :: l) s = Err KeyError.
  Proof.
    intros o x y l s Hx. unfold assign_ranks, bind. destruct (ranks_set (x :: y :: l) s) as (h & -> & H). cbn [compare_all miter]. unfold bind, compare_pair, inferior, bind, phen_of, bind, get.
    cbn [heap set_heap]. destruct (H x) as (-> & _). rewrite Hx. reflexivity.
  Qed.
  Theorem C78_multi_categorical : forall f gd s x y l, is_multi_kind (fkind f) = true -> is_phenotype (gspec_of (population gd)) = false ->
    members (population gd) = x :: y :: l -> phenotype (heap s x) = None -> fitness_execute f gd s = Err KeyError.
  Proof.
    intros f gd s x y l K Hp El Hx. unfold fitness_execute. rewrite K, Hp, El. unfold bind at 1, ret. unfold bind at 1. rewrite C78_no_phenotype; auto.
  Qed.
  (** A binary population with an individual that has no phenotype entry, after any whose
      phenotype is known: KeyError before anything is evaluated. *)
  Theorem C78_missing_entry : forall f gd s pre r post, is_phenotype (gspec_of (population gd)) = true -> members (population gd) = pre ++ r :: post ->
    Forall (fun q => exists ph, phenotype (heap s q) = Some (Some ph)) pre -> phenotype (heap s r) = None -> fitness_execute f gd s = Err KeyError.
  Proof.
    intros f gd s pre r post Hp El Fp Hr.
    assert (K : forall g, get_phenotype g (pre ++ r :: post) s = Err KeyError).
    { intros g. clear El. unfold get_phenotype. induction Fp as [|q pre (ph & Hq) Fp IH]; cbn [app miter].
      - unfold bind at 1. unfold get_phenotype1, bind, get. rewrite Hr. reflexivity.
      - unfold bind at 1. unfold get_phenotype1 at 1, bind at 1, get at 1. rewrite Hq. unfold ret. exact IH. }
    unfold fitness_execute, base_fitness_execute. rewrite Hp, El. destruct (is_multi_kind (fkind f)); unfold bind; rewrite K; reflexivity.
  Qed.
  (** swap alone: the same exception. *)
  Theorem C78_swap : forall pre r post s, (forall x, In x pre -> exists ph, phenotype (heap s x) = Some (Some ph)) -> phenotype (heap s r) = None ->
    swap (pre ++ r :: post) s = Err KeyError.
  Proof.
    induction pre as [|x pre IH]; intros r post s Hx Hr; unfold swap; cbn [app miter].
    - unfold swap1, bind, get. rewrite Hr. reflexivity.
    - unfold bind at 1. unfold swap1 at 1. unfold bind at 1, get. destruct (Hx x (or_introl eq_refl)) as (ph & E). rewrite E. unfold modify.
      apply IH; cbn [heap set_heap]; unfold upd.
      + intros y Hy. destruct (Nat.eqb y x); [exists (genotype (heap s x)); destruct (heap s x); reflexivity|apply Hx; right; exact Hy].
      + destruct (Nat.eqb_spec r x) as [->|]; [rewrite E in Hr; discriminate Hr|exact Hr].
  Qed.
  (** *** Objective vectors *)
  (** Comparing two individuals, the second with more objectives: IndexError. *)
  Lemma max_longer : forall ys xs, (List.length xs < List.length ys)%nat -> max_score xs ys = inl IndexError.
  Proof.
    induction ys as [|b ys IH]; intros [|a xs] L; cbn in L; try lia; [reflexivity|]. cbn [max_score]. rewrite IH by lia. reflexivity.
  Qed.
  Lemma eqb_length : forall xs ys, List.length xs <> List.length ys -> lst_eqb xs ys = false.
  Proof. induction xs as [|x xs IH]; intros [|y ys] N; cbn in *; try reflexivity; [congruence|]. rewrite IH by lia. apply andb_false_r. Qed.
  Theorem C78_more_objectives : forall o x y s px py xs ys s1 s2, phenotype (heap s x) = Some (Some px) -> call1 o px s = Ok (OTuple xs) s1 ->
    phenotype (heap s1 y) = Some (Some py) -> call1 o py s1 = Ok (OTuple ys) s2 -> (List.length xs < List.length ys)%nat -> inferior o x y s = Err IndexError.
  Proof.
    intros o x y s px py xs ys s1 s2 Hx Cx Hy Cy L. unfold inferior, bind, phen_of, bind, get. rewrite Hx. cbn [ret]. unfold ret at 1. unfold call_list, bind. rewrite Cx. unfold ret at 1.
    rewrite Hy. unfold ret at 1. rewrite Cy. unfold ret at 1. rewrite eqb_length by lia. unfold lift. rewrite max_longer by auto. reflexivity.
  Qed.
  (** VEGA with one number as target: TypeError at the first point that has an objective. *)
  Theorem C78_vega_target : forall f t gen best r s g x xs s1, fkind f = VegaHyperbola -> obj_value f = T1 t -> is_conditional f = false -> score (heap s r) = SVNone ->
    genotype (heap s r) = g -> calc_obj_func f g s = Ok (CVList (x :: xs)) s1 -> evaluate f gen best r s = Err TypeError.
  Proof.
    intros f t gen best r s g x xs s1 K T Cn Hs Hg C. unfold evaluate, bind, get. rewrite Hs. cbn [is_none]. rewrite Hg, C, Cn. unfold modify, lift. cbn [heap set_heap]. unfold upd. rewrite Nat.eqb_refl.
    unfold get_fitness_score. rewrite K, T. destruct (heap s1 r). reflexivity.
  Qed.
  (** The single-objective proportional selection on scores that are not numbers. *)
  Lemma weights_fail : forall l s, (exists r, In r l /\ forall x, score (heap s r) <> SV1 x) -> mmap (weight KScore None) l s = Err TypeError.
  Proof.
    induction l as [|r l IH]; intros s (r0 & I & N); [destruct I|]. cbn [mmap]. unfold bind at 1. unfold weight at 1, bind, get, lift_opt. cbn [key_of]. destruct (score (heap s r)) as [|x|v] eqn:E; try reflexivity.
    unfold ret at 1. unfold ret at 1. destruct I as [->|I]; [destruct (N x E)|]. rewrite IH by eauto. reflexivity.
  Qed.
  Theorem C78_proportional : forall fuel gd s, (exists r, In r (members (population gd)) /\ forall x, score (heap s r) <> SV1 x) ->
    selection_execute fuel SelBalanced gd s = Err TypeError.
  Proof.
    intros fuel gd s (r & I & N). cbn [selection_execute]. unfold balanced_pass, bind at 1. destruct (base_execute gd s) as [gd1 s1|e|] eqn:B; [|destruct (base_execute_safe gd s e B)|].
    - apply base_execute_ok in B. destruct B as (-> & _ & _ & _ & _ & H). cbn [population set_parents]. unfold bind at 1, ret at 1. unfold bind, add_probabilities, bind. rewrite weights_fail; auto.
      exists r. split; auto. intros x. rewrite H. destruct (last_pos 0 _ r); destruct (heap s r); apply N.
    - exfalso. unfold base_execute, get_empty_copy, bind in B. destruct (reset_idx_individ _ s) as [u s1| |] eqn:R; try discriminate.
      + unfold do_seed in B. destruct (rnd_seed s1); discriminate.
      + clear B I. unfold reset_idx_individ in R. revert R. generalize 0 at 1. generalize s. induction (members (population gd)) as [|c l IH]; intros s0 i R; [discriminate|]. cbn [reset_idx_loop] in R. unfold bind, modify in R. eapply IH. exact R.
  Qed.
  (** *** An odd number of parents *)
  Lemma cross_odd : forall ok (NL : NumOrder NO ok) l k n first s m,
    (forall r, In r l -> (r < next s)%nat /\ parent_ok (ok := ok) k n (genotype (heap s r))) -> (first < next s)%nat ->
    List.length l = (2 * m + 1)%nat -> (min_len k <= n)%nat -> cross_pairs k (Z.of_nat n) first l s = Err IndexError.
  Proof.
    intros ok NL l. pattern l. apply pair_ind; clear l; [intros; cbn in *; lia|reflexivity|]. intros a b l IH k n first s m Hl Hf L Hm. cbn [cross_pairs].
    destruct (Hl a) as [Na Oa]; [left; auto|]. destruct (Hl b) as [Nb Ob]; [right; left; auto|].
    unfold bind at 1. unfold get at 1. unfold bind at 1. unfold get at 1. unfold bind at 1.
    destruct (get_child k (Z.of_nat n) first (genotype (heap s a)) (genotype (heap s b)) s) as [c s3|e|] eqn:R3.
    - destruct (get_child_ok NL _ _ _ _ _ _ _ _ Oa Ob R3) as (-> & N3 & X & _). destruct X as (_ & _ & _ & _ & Xh).
      unfold bind at 1. rewrite (IH k n first s3 (m - 1)%nat); auto; [|lia|cbn in L; lia].
      intros r Hr. destruct (Hl r) as [Nr Or]; [right; right; auto|]. split; [lia|]. rewrite Xh; auto.
    - exfalso. revert R3.
      assert (Sf : safe (get_child k (Z.of_nat n) first (genotype (heap s a)) (genotype (heap s b))) s); [|apply Sf].
      unfold get_child. apply safe_bind; [apply safe_get|]. intros i0 s3 R3. apply get_ok in R3. destruct R3 as [-> ->].
      apply safe_bind; [apply (crossover_safe NL); auto|]. intros gs s4 R4.
      apply safe_bind; [eapply safe_possible; apply possible_randint; lia|]. intros. apply safe_alloc.
    - exfalso. revert R3. assert (Fl : fuelless (get_child k (Z.of_nat n) first (genotype (heap s a)) (genotype (heap s b)))); [|apply Fl].
      unfold get_child. apply fl_bind; [apply fl_get|intros ?]. apply fl_bind; [apply fl_crossover|intros ?]. apply fl_bind; [apply fl_randint|intros ?]. apply fl_alloc.
  Qed.
  Theorem C78_odd_parents : forall ok (NL : NumOrder NO ok) k n gd s m, cross_pre (ok := ok) k n gd s -> (min_len k <= n)%nat ->
    List.length (parents gd) = (2 * m + 1)%nat -> crossover_execute k gd s = Err IndexError.
  Proof.
    intros ok NL k n gd s m (Hm & (first & rest & Em & Ln) & Hp) Hn L. unfold crossover_execute. rewrite Em. unfold bind at 1, get at 1. rewrite Ln.
    unfold get_empty_copy, bind, ret. destruct (do_seed s) as [u s1|e|] eqn:R; [|exfalso; exact (safe_do_seed s e R)|exfalso; exact (fl_do_seed s R)].
    apply extends_do_seed in R. destruct R as (X1 & N1 & H1). rewrite (cross_odd ok NL _ _ _ _ _ m); auto.
    - intros r Hr. rewrite N1, H1. auto.
    - rewrite N1. apply Hm. rewrite Em. left; auto.
  Qed.
  (** *** An individual without rank *)
  (** ffga_fitness.py:26 on an individual that was not ranked: KeyError without the entry,
      TypeError when it holds a list. *)
  Theorem C78_no_rank : forall f r gen best s v s1, fkind f = Ffga -> is_conditional f = false -> score (heap s r) = SVNone ->
    calc_obj_func f (genotype (heap s r)) s = Ok v s1 ->
    (rank (heap s r) = None -> evaluate f gen best r s = Err KeyError) /\
    (forall l, rank (heap s r) = Some (SVL l) -> evaluate f gen best r s = Err TypeError).
  Proof.
    intros f r gen best s v s1 K Cn Hs C. 
    assert (H : heap s1 = heap s).
    { pose proof C as R1. unfold calc_obj_func in R1. bd R1 v' s2 R2. apply call_ok in R2. destruct R2 as [_ ->]. apply lift_ok in R1. destruct R1 as [_ ->]. reflexivity. }
    split; [intros Hr|intros l Hr]; unfold evaluate, bind, get; rewrite Hs; cbn [is_none]; rewrite C, Cn; unfold modify, lift; cbn [heap set_heap]; unfold upd; rewrite Nat.eqb_refl;
      unfold get_fitness_score; rewrite K, H; cbn [rank set_obj_score_f]; rewrite Hr; reflexivity.
  Qed.
  (** *** A tournament over positions that do not exist *)
  Theorem C78_tournament_position : forall idx l i s, py_nth l i = None ->
    (forall rest, get_best idx l (i :: rest) s = Err IndexError) /\
    (forall j r, py_nth l j = Some r -> get_best idx l [j; i] s = Err IndexError).
  Proof.
    intros idx l i s H. split.
    - intros rest. unfold get_best, bind, lift_opt. rewrite H. reflexivity.
    - intros j r Hj. unfold get_best, bind, lift_opt. rewrite Hj. unfold ret. cbn [get_best_loop]. unfold bind, lift_opt. rewrite H. reflexivity.
  Qed.
  (** *** Ranking per criterion of individuals without a list of ranks *)
  (** VEGARankedSelection's ranking of a population whose first individual has no rank,
      one rank only, or a list that is too short. *)
  Theorem C78_component_rank : forall j r l s, 0 <= j ->
    (rank (heap s r) = None -> assign_selection_ranks (Some j) (r :: l) s = Err KeyError) /\
    (forall v, rank (heap s r) = Some (SV1 v) -> assign_selection_ranks (Some j) (r :: l) s = Err TypeError) /\
    (forall vs, rank (heap s r) = Some (SVL vs) -> Z.of_nat (List.length vs) <= j -> assign_selection_ranks (Some j) (r :: l) s = Err IndexError).
  Proof.
    intros j r l s Hj.
    assert (P : forall x, put_rank (Some j) (r :: l) 0 x s = match rank (heap s r) with
      | None => Err KeyError
      | Some (SVL lst) => if (0 <=? j) && (j <? Z.of_nat (List.length lst)) then modify r (set_rank (Some (SVL (list_set lst (Z.to_nat j) x)))) s else Err IndexError
      | Some _ => Err TypeError end).
    { intros x. unfold put_rank, bind, lift_opt. assert (E : py_nth (r :: l) 0 = Some r) by (unfold py_nth; destruct (Z.ltb_spec 0 0); [lia|reflexivity]). rewrite E. unfold ret, get.
      destruct (rank (heap s r)) as [[| |]|]; try reflexivity. destruct (_ && _); reflexivity. }
    assert (S0 : forall e, put_rank (Some j) (r :: l) 0 (nofZ (0 + 1)) s = Err e -> assign_selection_ranks (Some j) (r :: l) s = Err e).
    { intros e E. unfold assign_selection_ranks. replace (zrange 0 (Z.of_nat (List.length (r :: l)))) with (0 :: zrange 1 (Z.of_nat (List.length (r :: l)))).
      - cbn [mfold]. unfold bind at 1. unfold bind at 1. unfold rank_step at 1. unfold bind at 1. rewrite E. reflexivity.
      - symmetry. apply zrange_cons. cbn [List.length]. lia. }
    split; [|split].
    - intros H. apply S0. rewrite P, H. reflexivity.
    - intros v H. apply S0. rewrite P, H. reflexivity.
    - intros vs H L. apply S0. rewrite P, H. destruct (Z.ltb_spec j (Z.of_nat (List.length vs))); [lia|]. rewrite andb_false_r. reflexivity.
  Qed.
  (** *** Genes beyond the pools *)
  (** They are left as they are until one of them should mutate. *)
  Theorem C78_extra_genes : forall level g s,
    (cat_mutation level [] g s = Err IndexError \/ exists t, cat_mutation level [] g s = Ok g (set_tape t s)) /\
    (g <> [] -> (forall k, 0 <= k <= 999 -> nleb (nofZ k) (nmul level (nofZ 1000)) = true) -> cat_mutation level [] g s = Err IndexError) /\
    ((forall k, 0 <= k <= 999 -> nleb (nofZ k) (nmul level (nofZ 1000)) = false) -> exists t, cat_mutation level [] g s = Ok g (set_tape t s)).
  Proof.
    intros level g. assert (D : forall s, exists k t, 0 <= k <= 999 /\ determines_mutation level s = Ok (nleb (nofZ k) (nmul level (nofZ 1000))) (set_tape t s)).
    { intros s. exists (tape s O mod 1000), (fun i => tape s (S i)). assert (B := Z.mod_pos_bound (tape s O) 1000 ltac:(lia)). split; [lia|]. reflexivity. }
    assert (T : forall t t' s, set_tape t (set_tape t' s) = set_tape t s) by reflexivity.
    induction g as [|x g IH]; intros s.
    - assert (E : exists t, @ret NO (list gv) [] s = Ok [] (set_tape t s)) by (exists (tape s); destruct s; reflexivity).
      split; [right; exact E|]. split; [contradiction|intros _; exact E].
    - cbn [cat_mutation]. destruct (D s) as (k & t & Hk & Ed). unfold bind at 1 3 5 7. rewrite Ed. destruct (nleb (nofZ k) _) eqn:Fk.
      + split; [left; reflexivity|]. split; [reflexivity|]. intros N. rewrite (N k Hk) in Fk. discriminate Fk.
      + destruct (IH (set_tape t s)) as (I1 & _ & I3). unfold bind. split; [|split].
        * destruct I1 as [->|(t' & ->)]; [left; reflexivity|right]. exists t'. rewrite T. reflexivity.
        * intros _ N. rewrite (N k Hk) in Fk. discriminate Fk.
        * intros N. destruct (I3 N) as (t' & ->). exists t'. rewrite T. reflexivity.
  Qed.
End C78.

(** Exact arithmetic: the string of a genotype may have any length; ValueError exactly
    when nothing is left for the last gene, and what exceeds the total is not read. *)
Theorem C78_length : forall gray (gens : list qgene) bp (bs : list bool), Forall legal gens -> gens <> [] -> @get_gens_params Qops gens = inr bp ->
  (Z.of_nat (List.length bs) <= zsum (removelast (num_bits bp)) -> @decode_genotype Qops gray gens bp (map GBit bs) = inl ValueError) /\
  (zsum (removelast (num_bits bp)) < Z.of_nat (List.length bs) -> exists ys, @decode_genotype Qops gray gens bp (map GBit bs) = inr ys /\ List.length ys = List.length gens) /\
  (forall more, zsum (num_bits bp) <= Z.of_nat (List.length bs) -> @decode_genotype Qops gray gens bp (map GBit (bs ++ more)) = @decode_genotype Qops gray gens bp (map GBit bs)).
Proof.
  intros gray gens bp bs Lg N E. destruct (legal_params gens Lg) as (ns & Hb & E' & H1 & H2). rewrite E in E'. inversion E'; subst bp. clear E E'.
  cbn [num_bits params_of]. rewrite H1.
  assert (L : List.length gens = List.length ns) by (eapply Forall2_length; eauto).
  assert (F : Forall (fun n => 1 <= n) ns) by (clear - Hb; induction Hb as [|g n gens ns (Hn & _) Hb IH]; constructor; auto).
  assert (Nn : ns <> []) by (destruct ns; [destruct gens; [congruence|discriminate]|discriminate]).
  assert (G : forall l, @geno_to_bits Qops (map GBit l) = Some l) by (induction l as [|b l IH]; [reflexivity|cbn [map geno_to_bits]; rewrite IH; reflexivity]).
  assert (D : forall l, @decode_genotype Qops gray gens (@params_of Qops (qparams gens ns)) (map GBit l) =
    match @decode_loop Qops gray gens (map snd (qparams gens ns)) (0 :: psums 0 ns) l with inl e => inl e | inr xs => inr (map GNum xs) end).
  { intros l. unfold decode_genotype. rewrite G. unfold binary_individ_to_float. cbn [real_step idx_bits params_of]. rewrite H1. reflexivity. }
  assert (Ls : List.length (map snd (qparams gens ns)) = List.length ns) by (apply qparams_len; auto).
  pose proof (@decode_short Qops gray bs gens (map snd (qparams gens ns)) ns 0 L Ls F Nn ltac:(lia)) as X. rewrite !D.
  split; [|split].
  - intros H. destruct (decode_loop _ _ _ _ _) as [e|ys]; [destruct X as [-> _]; reflexivity|lia].
  - intros H. destruct (decode_loop _ _ _ _ _) as [e|ys]; [lia|]. exists (map GNum ys). split; [reflexivity|rewrite map_length; apply X].
  - intros more H. rewrite D, (@decode_more Qops); auto; lia.
Qed.

Section Examples78.
  Local Existing Instance Qops.
  Definition two_genes : list qgene := [(0, 3, 1); (0, 7, 1)]%Q.
  (** Two and three bits: two bits leave nothing for the second gene, three leave one. *)
  Example C78_length_case : exists bp, get_gens_params (two_genes : list bgene) = inr bp /\ num_bits bp = [2; 3] /\
    decode_genotype false two_genes bp (map GBit [true; true]) = inl ValueError /\
    decode_genotype false two_genes bp [GBit true; GInt 1] = inl TypeError /\
    exists ys, decode_genotype false two_genes bp (map GBit [true; true; true]) = inr ys /\ List.length ys = 2%nat.
  Proof.
    eexists. split; [reflexivity|]. split; [reflexivity|]. split; [reflexivity|]. split; [reflexivity|]. eexists. split; reflexivity.
  Qed.
  Example C78_length_hypotheses : Forall legal two_genes /\ two_genes <> [].
  Proof. split; [|discriminate]. repeat constructor; unfold Qlt, Qle; simpl; lia. Qed.
  Definition one_value : objfun := Obj1 (fun _ _ => inr (OScalar (1#1)%Q)).
  Definition decoded : individ := set_phenotype (Some (Some [@GNum Qops (1#1)%Q])) (ind (map GBit [true; false]) SVNone).
  Example C78_scalar_case : scalar_only one_value /\
    (let s := world_ent [decoded; decoded] [] in phenotype (heap s 0%nat) = Some (Some [@GNum Qops (1#1)%Q]) /\ assign_ranks one_value [0; 1]%nat s = Err TypeError).
  Proof. split; [intros k g; eauto|]. split; [reflexivity|]. vm_compute. reflexivity. Qed.
  Example C78_tournament_case : scalar_scores (world_ent [ind (ints [1]) (q (1#1)); ind (ints [2]) (q (2#1)); ind (ints [3]) (q (3#1))] []) [0; 1; 2]%nat.
  Proof. intros r [<-|[<-|[<-|[]]]] v; discriminate. Qed.
  (** Two objectives, then three. *)
  Definition growing : objfun := Obj1 (fun k _ => inr (OTuple (repeat (1#1)%Q (2 + k)))).
  Example C78_more_case : inferior growing 0%nat 1%nat (world_ent [decoded; decoded] []) = Err IndexError.
  Proof. vm_compute. reflexivity. Qed.
  Definition ranked_gd : gadata := gd_of (cat_pop 3).
  Example C78_proportional_case : selection_execute 5 SelBalanced ranked_gd (world_ent [ind (ints [1]) (q (1#1)); ind (ints [2]) (SVL [1#1; 2#1])%Q; ind (ints [3]) (q (3#1))] []) = Err TypeError /\
    assign_ranks growing [0; 1]%nat (world_ent [ind (ints [1]) (q (1#1)); decoded] []) = Err KeyError /\ crossover_execute OnePoint (gd_of (cat_pop 0)) (world_ent [] []) = Err IndexError.
  Proof. repeat split. Qed.
  Definition vega_one : fitness := mkFit VegaHyperbola growing (T1 (1#1)%Q) None None [] false [].
  Example C78_target_case : evaluate vega_one 0 BNone 0%nat (world_ent [decoded] []) = Err TypeError.
  Proof. vm_compute. reflexivity. Qed.
  Definition ranked_fit : fitness := mkFit Ffga growing TNone None None [] false [].
  Example C78_no_rank_case : score (heap (world_ent [decoded] []) 0%nat) = SVNone /\ rank (heap (world_ent [decoded] []) 0%nat) = None /\
    (exists s1, calc_obj_func ranked_fit (genotype (heap (world_ent [decoded] []) 0%nat)) (world_ent [decoded] []) = Ok (CVList [1#1; 1#1]%Q) s1) /\
    evaluate ranked_fit 0 BNone 0%nat (world_ent [decoded] []) = Err KeyError /\ get_best None [0]%nat [0; 1] (world_ent [decoded] []) = Err IndexError.
  Proof. split; [reflexivity|]. split; [reflexivity|]. split; [eexists; reflexivity|]. split; vm_compute; reflexivity. Qed.
  Example C78_component_rank_case : rank (heap (world_ent [decoded] []) 0%nat) = None /\ assign_selection_ranks (Some 0) [0]%nat (world_ent [decoded] []) = Err KeyError.
  Proof. split; vm_compute; reflexivity. Qed.
  (** Three parents: one child is made, then the partner of the third is missing. *)
  Definition three_parents : gadata := set_parents [0; 1; 2]%nat (gd_of (set_members [0; 1; 2]%nat (cat_pop 3))).
  Definition three_world : st := world_ent [ind (ints [1; 2]) (q (1#1)); ind (ints [2; 1]) (q (2#1)); ind (ints [3; 3]) (q (3#1))] [].
  Example C78_odd_case : cross_pre (ok := fun _ => True) OnePoint 2 three_parents three_world /\ crossover_execute OnePoint three_parents three_world = Err IndexError.
  Proof.
    assert (P : cross_pre (ok := fun _ => True) OnePoint 2 three_parents three_world).
    { split; [|split].
      - intros r [<-|[<-|[<-|[]]]]; cbn; lia.
      - exists 0%nat, [1; 2]%nat. split; reflexivity.
      - intros r [<-|[<-|[<-|[]]]]; (split; [cbn; lia|]; split; [reflexivity|discriminate]). }
    split; [exact P|]. apply (C78_odd_parents _ Qorder _ 2%nat _ _ 1%nat P); [cbn; lia|reflexivity].
  Qed.
  (** One pool for two genes: at level 1 the second always mutates, at level -1 never. *)
  Example C78_extra_case : (forall k, 0 <= k <= 999 -> nleb (nofZ k) (nmul (1#1 : @num Qops) (nofZ 1000)) = true) /\
    (forall k, 0 <= k <= 999 -> nleb (nofZ k) (nmul (-1 # 1 : @num Qops) (nofZ 1000)) = false) /\
    cat_mutation (1#1 : @num Qops) [CRange 0 3 1] (ints [1; 7]) three_world = Err IndexError.
  Proof.
    split; [|split; [|vm_compute; reflexivity]]; intros k Hk; cbn [nleb nmul nofZ Qops].
    - apply Qle_bool_iff. unfold Qle. cbn. lia.
    - apply not_true_is_false. intros C. apply Qle_bool_iff in C. unfold Qle in C. cbn in C. lia.
  Qed.
  Example C78_swap_case : value (swap [0; 1]%nat (world [mkInd (ints [1]) (Some (Some (ints [2]))) SVNone SVNone true None None; ind (ints [3]) SVNone] [])) = None /\
    observe (fun _ s' => genotype (heap s' 0%nat)) (swap [0]%nat (world [mkInd (ints [1]) (Some (Some (ints [2]))) SVNone SVNone true None None] [])) = Some (ints [2]).
  Proof. split; run. Qed.
End Examples78.

Print Assumptions C78_not_a_bit. Print Assumptions C78_length. Print Assumptions C78_ranking. Print Assumptions C78_scalar_objective.
Print Assumptions C78_vega_tournament. Print Assumptions C78_vega_weight. Print Assumptions C78_print.
Print Assumptions C78_empty. Print Assumptions C78_no_phenotype. Print Assumptions C78_multi_categorical. Print Assumptions C78_more_objectives.
Print Assumptions C78_vega_target. Print Assumptions C78_proportional.
Print Assumptions C78_odd_parents. Print Assumptions C78_missing_entry. Print Assumptions C78_swap.
Print Assumptions C78_extra_genes. Print Assumptions C78_no_rank. Print Assumptions C78_tournament_position. Print Assumptions C78_component_rank.
