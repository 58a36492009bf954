(** Whole runs of VEGA and FFGA over any numbers: what can be raised.  The proof of
    PropMultiSafe.multi_safe with the number-dependent steps as hypotheses, a set E of
    exceptions the selection may raise and a bound lim on the generation numbers. *)
From Coq Require Import String.
From Coq Require Import ZArith List Bool Lia Permutation.
From Verif Require Import Spec Num State Binary Population GaData Crossover Mutation Selection Penalty Fitness NewGeneration Driver
  ListLemmas Rnd Exec Laws CodingProofs PopulationProofs CrossoverProofs MutationProofs SelectionProofs BalancedProofs VegaProofs
  NewGenProofs UpdateProofs FitnessProofs StepProofs DomainProofs SafetyProofs RankingProofs MultiProofs MultiRuns MultiSafetyProofs
  RunProofs Runs OptimizeProofs.
Import ListNotations.
Open Scope string_scope.
Open Scope list_scope.
Open Scope Z_scope.

Section MultiAny.
  Context {NO : NumOps}.

  Lemma only_mrepeat : forall E {A} (f : M A) n s, (forall s, only E f s) -> only E (mrepeat n f) s.
  Proof.
    intros E A f. induction n as [|n IH]; intros s H; cbn [mrepeat]; [apply safe_only, safe_ret|]. apply only_bind; [apply H|]. intros a s1 _.
    apply only_bind; [apply IH; auto|]. intros. apply safe_only, safe_ret.
  Qed.

  (** VEGA's tournaments: numbers the comparison works on. *)
  Lemma vega_selection_any : forall ok, NumOrder NO ok -> forall fuel q t (gd : gadata) s w, 1 <= q -> (Z.to_nat q <= w)%nat ->
    2 <= t < num_individ (population gd) -> t <= Z.of_nat (length (members (population gd))) ->
    (forall r, In r (members (population gd)) -> (r < next s)%nat /\ exists l, score (heap s r) = SVL l /\ length l = w /\ Forall ok l) ->
    (exists x, pairs_wanted (Some q) gd x) -> safe (selection_execute fuel (SelVegaTournament q t) gd) s.
  Proof.
    intros ok NL fuel q t gd s w Hq Hw Ht Hl Hm (x & Hx). cbn [selection_execute]. apply safe_bind.
    { unfold check_tournament_size. destruct (t <? 2) eqn:E1; [apply Z.ltb_lt in E1; lia|].
      destruct (num_individ (population gd) <=? t) eqn:E2; [apply Z.leb_le in E2; lia|]. apply safe_ret. }
    intros u s1 R1. apply check_size_ok in R1. destruct R1 as [_ ->]. apply safe_bind; [apply base_execute_safe|].
    intros gd1 s2 R2. apply base_execute_ok in R2. destruct R2 as (-> & N2 & L2 & S2 & P2 & Rn).
    assert (K : forall i, 0 <= i < q -> keys_ok ok s2 (Some i) (members (population gd))).
    { intros i Hi. apply (keys_ok_key ok s s2); [intros r Hr; eapply renumbered_key; exact Rn|].
      intros r Hr. destruct (Hm r Hr) as (_ & l & El & Ll & Fl). unfold key_at. rewrite El.
      destruct (nth_error l (Z.to_nat i)) as [y|] eqn:Ey; [|apply nth_error_None in Ey; lia]. exists y. split.
      - rewrite <- (Z2Nat.id i) by lia. rewrite ListLemmas.py_nth_in by lia. rewrite Nat2Z.id. exact Ey.
      - rewrite Forall_forall in Fl. apply Fl. eapply nth_error_In; eauto. }
    apply safe_mfold with (P := fun _ g s3 => (exists ps, g = set_parents ps gd) /\ extends s2 s3).
    - split; [exists []; reflexivity|apply extends_refl].
    - intros d i rest g s3 El ((ps & ->) & X). apply zrange_at in El. destruct El as [-> Hi].
      apply (tournament_safe ok NL); cbn [population set_parents]; try lia.
      + destruct X as (_ & _ & _ & _ & Xh). apply (keys_ok_ext ok s2 s3); [|apply K; lia]. intros r Hr. apply Xh. rewrite N2. apply Hm; auto.
      + intros r Hr. destruct X as (Xn & _). destruct (Hm r Hr) as [Lr _]. lia.
      + exists x. exact Hx.
    - intros d i rest g s3 g' s4 El ((ps & ->) & X) R. apply tournament_ok with (W := fun _ => True) in R; auto.
      + destruct R as (y & prs & _ & _ & -> & _ & X' & _). split; [eexists; cbn; reflexivity|eapply extends_trans; eauto].
      + intros r Hr. cbn in Hr. destruct X as (Xn & _). destruct (Hm r Hr) as [Lr _]. lia.
  Qed.

  (** The roulette: the number of cumulative shares, and the index a draw gives. *)
  Lemma cumul_length : forall total ws acc cs, cumul total acc ws = inr cs -> length cs = length ws.
  Proof.
    induction ws as [|w ws IH]; intros acc cs H; cbn [cumul] in H; [inversion H; reflexivity|].
    destruct (py_div w total) as [|y]; [discriminate|]. destruct (cumul total (nadd acc y) ws) as [|cs0] eqn:E; [discriminate|]. inversion H; subst. cbn [length]. f_equal. eapply IH; eauto.
  Qed.
  Lemma scores_length : forall ws scores, selection_scores ws = inr scores -> length scores = S (length ws).
  Proof.
    intros ws scores H. unfold selection_scores in H. destruct (cumul (nsum ws) nzero ws) as [|cs] eqn:E; [discriminate|]. inversion H; subst. cbn [length]. f_equal. eapply cumul_length; eauto.
  Qed.
  Lemma argmin_range : forall r scores i best k, 0 <= best < i -> best <= argmin_loop r scores i best k < i + Z.of_nat (length scores).
  Proof.
    induction scores as [|c cs IH]; intros i best k H; cbn [argmin_loop length]; [lia|].
    destruct (nltb _ _); [specialize (IH (i + 1) i (nabs (nsub c r)))|specialize (IH (i + 1) best k)]; lia.
  Qed.
  (** The index of a draw r over the n + 1 cumulative shares: between -1 and n, n only if
      the last share is at most r, -1 only if r is not at least 0; never an exception. *)
  Lemma index_range : forall ws scores r, selection_scores ws = inr scores ->
    exists i, index_for scores r = inr i /\ -1 <= i <= Z.of_nat (length ws) /\ (i = Z.of_nat (length ws) -> nleb (last scores nzero) r = true) /\
      (i = -1 -> nleb nzero r = false).
  Proof.
    intros ws scores r H. assert (H0 : exists cs, scores = nzero :: cs) by (unfold selection_scores in H; destruct (cumul _ _ _); inversion H; eauto). pose proof (scores_length ws scores H) as L. destruct scores as [|c cs]; [discriminate|]. cbn [length] in L. injection L as L. unfold index_for.
    pose proof (argmin_range r cs 1 0 (nabs (nsub c r)) ltac:(lia)) as Hi. set (i := argmin_loop _ _ _ _ _) in *.
    destruct (nth_error (c :: cs) (Z.to_nat i)) as [ci|] eqn:En; [|apply nth_error_None in En; cbn [length] in En; lia].
    eexists. split; [reflexivity|]. destruct (nleb ci r) eqn:Le; (split; [lia|]); (split; intros Ei); try lia.
    2:{ replace (Z.to_nat i) with 0%nat in En by lia. destruct H0 as (cs' & E0). rewrite E0 in En. cbn in En. injection En as <-. exact Le. }
    replace (last (c :: cs) nzero) with ci; auto.
    assert (Z.to_nat i = length cs) as Ej by lia. rewrite Ej in En. clear - En.
    destruct cs as [|b cs] using rev_ind; [cbn in *; congruence|]. rewrite app_length, Nat.add_comm in En. cbn [length Nat.add nth_error] in En.
    rewrite nth_error_app2, Nat.sub_diag in En by lia. cbn in En. rewrite app_comm_cons, last_last. congruence.
  Qed.

  (** Proportional selection: IndexError is the only exception. *)
  Lemma balanced_selection_any : forall fuel (gd : gadata) s (P : num -> Prop),
    (forall r, In r (members (population gd)) -> (r < next s)%nat /\ exists x, score (heap s r) = SV1 x /\ P x) ->
    (forall ws, length ws = length (members (population gd)) -> Forall P ws -> exists scores, selection_scores ws = inr scores) ->
    (exists x, pairs_wanted None gd x) -> only (fun e => e = IndexError) (selection_execute fuel SelBalanced gd) s.
  Proof.
    intros fuel gd s P Hm Hs Hx. cbn [selection_execute]. unfold balanced_pass. apply only_bind; [apply safe_only, base_execute_safe|].
    intros gd1 s2 R2. apply base_execute_ok in R2. destruct R2 as (-> & N2 & L2 & S2 & P2 & Rn). cbn [population set_parents].
    set (l := members (population gd)) in *. apply only_bind; [apply safe_only, safe_ret|]. intros u s3 R3. apply ret_ok in R3. destruct R3 as [_ ->].
    assert (W : forall r, In r l -> exists x, score (heap s2 r) = SV1 x /\ P x).
    { intros r Hr. destruct (Hm r Hr) as (_ & x & E & Hp). exists x. split; auto. pose proof (renumbered_core l s s2 r Rn) as [C _]. destruct C as (_ & _ & E1 & _). rewrite <- E. auto. }
    assert (Ws : exists ws, mmap (weight KScore None) l s2 = Ok ws s2 /\ length ws = length l /\ Forall P ws).
    { clear -W. induction l as [|r l IH]; [exists []; repeat split; auto|]. destruct IH as (ws & E & L & F); [intros; apply W; right; auto|].
      destruct (W r) as (x & Ex & Hp); [left; auto|]. exists (x :: ws). cbn [mmap length]. unfold bind. unfold weight at 1, bind, get, lift_opt, key_of. rewrite Ex. cbn [ret].
      rewrite E. split; [reflexivity|]. split; [congruence|]. constructor; auto. }
    destruct Ws as (ws & Ew & Lw & Fw). destruct (Hs ws Lw Fw) as (scores & Es).
    apply only_bind.
    { apply safe_only. unfold add_probabilities. apply safe_bind; [intros e; rewrite Ew; discriminate|]. intros ws' s3 R. rewrite Ew in R. inversion R; subst. eapply safe_lift; exact Es. }
    intros sc s3 R. unfold add_probabilities, bind in R. rewrite Ew in R. apply lift_ok in R. destruct R as [R ->]. rewrite Es in R. inversion R; subst sc. clear R.
    assert (Gi : forall s', safe (get_index scores) s').
    { intros s'. unfold get_index. apply safe_bind; [eapply safe_possible; apply possible_random|]. intros r s4 R.
      destruct (index_range ws scores r Es) as (i & Ei & _). eapply safe_lift; eauto. }
    assert (Si : forall f first s', safe (second_index f scores first) s').
    { induction f as [|f IH]; intros first s'; cbn [second_index]; [apply safe_nofuel|]. apply safe_bind; [apply Gi|]. intros i s4 _. destruct (i =? first); [apply IH|apply safe_ret]. }
    assert (Pa : forall i s', only (fun e => e = IndexError) (pop_at l i) s').
    { intros i s'. unfold pop_at. apply only_bind; [|intros; apply safe_only, safe_get]. intros e. unfold lift_opt. destruct (py_nth l i); cbn; [discriminate|]. intros C. inversion C; reflexivity. }
    unfold balanced_selection. destruct Hx as (x & Hx). apply only_bind.
    { apply safe_only. unfold get_total_num_parents. apply safe_bind; [apply safe_ret|]. intros a s4 R. apply ret_ok in R. destruct R as [-> ->]. eapply safe_lift_opt. exact Hx. }
    intros n s4 _. apply only_bind; [|intros; apply safe_only, safe_ret].
    apply only_mrepeat. intros s5. cbn [population set_parents]. fold l. unfold balanced_pair.
    apply only_bind; [apply safe_only, Gi|]. intros i1 s6 _.
    apply only_bind; [apply safe_only, Si|]. intros i2 s7 _.
    apply only_bind; [apply Pa|]. intros. apply only_bind; [apply safe_only, safe_alloc|]. intros.
    apply only_bind; [apply Pa|]. intros. apply safe_only. apply safe_bind; [apply safe_alloc|]. intros. apply safe_ret.
  Qed.

  Lemma newgen_multi_any : forall ng (gd : gadata) s, ng_multi ng = true ->
    (forall r, In r (members (population gd)) -> ranked (rank (heap s r)) /\ exists ph, phenotype (heap s r) = Some (Some ph)) ->
    (ng_transfer ng = TRandom -> (11 <= length (members (population gd)))%nat) -> safe (newgen_execute ng gd) s.
  Proof.
    intros ng gd s M H Hr. unfold newgen_execute. rewrite M.
    assert (Np : (if is_phenotype (gspec_of (population gd)) then get_phenotype (gspec_of (population gd)) (members (population gd)) else ret tt) s = Ok tt s).
    { destruct (is_phenotype _); [|reflexivity]. apply phenotype_noop. intros r Ir. apply H; auto. }
    apply safe_bind; [intros e; rewrite Np; discriminate|]. intros u s1 R. rewrite Np in R. inversion R; subst s1. clear R.
    apply safe_bind; [|intros; apply safe_ret]. unfold add_parents. rewrite M. apply safe_bind; [|intros; apply safe_ret].
    destruct (ng_transfer ng); [apply rank1_prefix_safe; intros r Ir; apply H; auto|]. specialize (Hr eq_refl).
    destruct (members (population gd)) as [|a l0 _] using rev_ind; [cbn in Hr; lia|]. rewrite app_length in Hr. cbn [length] in Hr.
    intros e. destruct (proj1 (add_random_possible l0 a 10 (Z.of_nat (length (children gd))) s ltac:(lia)) (tape s)) as (x & t & Ex & _). rewrite set_tape_same in Ex. congruence.
  Qed.

  (** The whole of optimize, once the pieces are in order. *)
  Lemma multi_only_any : forall ok, NumOrder NO ok -> counting ok -> neqb (nofZ 0) nzero = true ->
    forall fuel cf gray gens bp fk sel ngm ng f cl F n (G : sval -> Prop) (big : nat -> Prop) lo (E : exn -> Prop) lim s,
    let g' := GenBinary gray gens bp in
    prepare (GenBinary gray gens bparams0) = inr g' -> spec_usable g' ->
    (exists ps, bp = params_of ps /\ Forall2 (fun g p => gene_params g = inr p) gens ps) ->
    Forall (fun x => exists geno, input_genotype g' x = inr geno /\ in_domain g' geno) (cf_input_population cf) ->
    Z.of_nat (length (cf_input_population cf)) <= cf_num_individ cf ->
    new_bin (cf_mutation_lvl cf) = inr (MutBin (cf_mutation_lvl cf)) -> mut_spec_ok (MutBin (cf_mutation_lvl cf)) g' -> 2 <= zsum (num_bits bp) ->
    (forall x, in_domain g' x -> exists ph, decode_genotype gray gens bp x = inr ph) ->
    new_fitness fk (cf_objective cf) (cf_obj_value cf) (cf_input_data cf) (cf_penalty cf) (cf_conditions cf) = inr (f, cl) ->
    is_multi_kind (fkind f) = true -> new_newgen ngm (cf_transfer cf) = inr ng -> plain_selection sel -> objectives_ok sel ->
    sized ok F n -> steady (obj_function f) F -> (forall k pt, domain_point g' pt -> one_arg (obj_function f) k pt = inr (OTuple (F pt))) ->
    1 <= lim -> cf_num_generations cf <= lim ->
    (forall k pt gen best i, domain_point g' pt -> 0 <= gen < lim -> ranked (rank i) -> exists v j, called f k pt = inr v /\ assess f gen best v i = inr j /\ G (score j)) ->
    (forall gd s, fits g' (cf_num_individ cf) (cf_children_percent cf) gd ->
       (forall r, In r (members (population gd)) -> (r < next s)%nat /\ G (score (heap s r))) ->
       big (length (members (population gd))) -> only E (selection_execute fuel sel gd) s) ->
    (forall gd k, fits g' (cf_num_individ cf) (cf_children_percent cf) gd -> num_pairs sel gd k -> (lo <= k)%nat) ->
    (forall gd s, fits g' (cf_num_individ cf) (cf_children_percent cf) gd ->
       (forall r, In r (members (population gd)) -> G (score (heap s r)) /\ ranked (rank (heap s r)) /\
          Forall (gene_ok (ok := ok)) (genotype (heap s r)) /\ exists ph, phenotype (heap s r) = Some (Some ph)) ->
       big (length (members (population gd))) -> (lo <= length (children gd))%nat -> safe (newgen_execute ng gd) s) ->
    (forall k, big k -> (0 < k)%nat) ->
    (forall c gd s c' gd' s' kids els h1 h2 rc cs front, c_newgen c = ng -> fits g' (cf_num_individ cf) (cf_children_percent cf) gd ->
       big (length (members (population gd))) -> (lo <= length kids)%nat ->
       c_selection c = sel -> MStep F c gd s c' gd' s' kids els h1 h2 rc cs front -> big (length (members (population gd')))) ->
    (forall k, Z.of_nat k = cf_num_individ cf -> big k) -> 0 <= cf_num_individ cf ->
    only E (ga_optimize fuel cf true (GenBinary gray gens bparams0) fk sel OnePoint new_bin ngm) s.
  Proof.
    intros ok NL Ct Z0 fuel cf gray gens bp fk sel ngm ng f cl F n G big lo E lim s g' Pg Us (ps & Eps & Fps) Hinp Hnum M Ms Two Dec Nf Mk Ng Plain Ho Sz St0 Hcall Hl1 Hl2 Hass Hsel Hpairs Hng Hbig1 Hbig Hstart Hn0.
    set (num0 := cf_num_individ cf) in *. set (pop0 := mkPop [] false num0 (GenBinary gray gens bparams0) (cf_input_population cf)).
    assert (Sp : set_params num0 (GenBinary gray gens bparams0) (cf_input_population cf) = inr pop0) by (apply set_params_fits; lia).
    unfold ga_optimize. apply only_bind; [apply safe_only, safe_do_seed|]. intros u s1 R1. fold num0. rewrite Sp, Nf, M, Ng.
    apply only_bind; [apply safe_only; eapply safe_lift; reflexivity|]. intros p sa Ra. apply lift_ok in Ra. destruct Ra as [Ep ->]. inversion Ep; subst p. clear Ep.
    apply only_bind; [apply safe_only; eapply safe_lift; reflexivity|]. intros fc sb Rb. apply lift_ok in Rb. destruct Rb as [Ep ->]. inversion Ep; subst fc. clear Ep.
    apply only_bind; [apply safe_only; eapply safe_lift; reflexivity|]. intros m0 sc Rc. apply lift_ok in Rc. destruct Rc as [Ep ->]. inversion Ep; subst m0. clear Ep.
    apply only_bind; [apply safe_only; eapply safe_lift; reflexivity|]. intros ng0 sd Rd. apply lift_ok in Rd. destruct Rd as [Ep ->]. inversion Ep; subst ng0. clear Ep.
    apply only_bind.
    { apply safe_only. eapply fill_safe; [exact Pg|exact Us| |].
      - intros gray' gens' bp' X. inversion X; subst gray' gens' bp'. eauto.
      - cbn [input_population]. eapply Forall_impl; [|exact Hinp]. intros x (geno & A & B). eauto. }
    intros p' s2 R2. cbv zeta. cbn [fst snd].
    destruct (set_params_ok _ _ _ _ _ _ _ Sp R2) as (Pg' & Np & _ & Lm). rewrite Z.max_r in Lm by auto. assert (Eg : gspec_of p' = g') by congruence.
    set (gd0 := new_gadata true (cf_num_generations cf) (cf_children_percent cf) (resolved_stop cf) p').
    set (c := mkComps f sel OnePoint (MutBin (cf_mutation_lvl cf)) ng).
    assert (St : multi_started gd0 s2) by (exists num0, gray, gens, bparams0, (cf_input_population cf), pop0, s1, p', (cf_num_generations cf), (cf_children_percent cf), (resolved_stop cf); auto).
    assert (Pi : pop_in gd0 s2).
    { pose proof (fill_in num0 _ _ pop0 s1 p' s2 (cf_num_generations cf) (cf_children_percent cf) (resolved_stop cf) Z0 Sp R2) as X. apply X.
      intros x geno Ix Ex. rewrite Eg in *. rewrite Forall_forall in Hinp. destruct (Hinp x Ix) as (geno' & E' & Dm). congruence. }
    assert (Rdy : mready ok f sel OnePoint ng g' c).
    { repeat (split; [reflexivity|]). split; [constructor; [discriminate|exact I]|]. split; [exact Ms|].
      intros x (bs & -> & Lb). rewrite map_length. cbn [min_len]. split; [lia|]. split; [exact I|].
      apply Forall_forall. intros y Hy. apply in_map_iff in Hy. destruct Hy as (b & <- & _). exact I. }
    assert (Run : only E (run_loop fuel c gd0) s2 /\ forall c' gd' s', run_loop fuel c gd0 s2 = Ok (c', gd') s' -> safe (print_best_solution gd') s').
    { apply (multi_run_safe ok NL Ct F n Sz fuel f sel OnePoint ng g' num0 (cf_children_percent cf) G big lo)
        with (Exc := E) (lim := lim) (c := c) (gd := gd0) (s := s2); auto; try lia.
      - intros gen best Hgen Hb k pt i Hpt Hr. destruct (Hass k pt gen best i Hpt Hgen Hr) as (v & j & Cv & Ej & _). exists v, j. auto.
      - intros k pt gen best i v j Hpt Hgen Hr Cv Aj. destruct (Hass k pt gen best i Hpt Hgen Hr) as (v' & j' & Cv' & Ej & Gj). congruence.
      - apply multi_started_init. auto.
      - split; [exact Eg|]. split; [exact Np|reflexivity].
      - unfold gd0. cbn. unfold resolved_stop. destruct (cf_early_stop cf); eauto. }
    destruct Run as [Run1 Run2]. apply only_bind; [exact Run1|]. intros [c' gd'] s3 R3. cbn [fst snd]. apply safe_only.
    apply safe_bind; [|intros; apply safe_ret]. destruct (cf_is_print cf); [eapply Run2; exact R3|apply safe_ret].
  Qed.
End MultiAny.
