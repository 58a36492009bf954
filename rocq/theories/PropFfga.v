(** FFGA's scores (C56) and the order of objective values in multi-objective tasks
    with conditions (C57). *)
From Coq Require Import String.
From Coq Require Import ZArith QArith List Bool Lia Lqa Permutation Sorted.
From Verif Require Import Spec Num State Binary Population GaData Crossover Mutation Selection Penalty Fitness NewGeneration Driver
  ListLemmas Rnd Exec Laws PopulationProofs CrossoverProofs MutationProofs SelectionProofs VegaProofs
  NewGenProofs UpdateProofs FitnessProofs StepProofs RunProofs HistoryProofs Runs RankingProofs PropMulti MultiProofs MultiRuns Demo PropPareto.
Import ListNotations.
Open Scope list_scope.
Open Scope Z_scope.

Section Scores.
  Context {NO : NumOps}.

  (** *** C56 *)
  Lemma assess_ffga : forall f gen best v i j, fkind f = Ffga -> assess f gen best v i = inr j ->
    exists x y, rank j = Some (SV1 x) /\ score j = SV1 y /\ py_div none_ (nadd none_ x) = inr y.
  Proof.
    intros f gen best v i j Fk H.
    assert (G : forall i' pen sc, get_fitness_score f i' pen = inr sc -> exists x y, rank i' = Some (SV1 x) /\ sc = SV1 y /\ py_div none_ (nadd none_ x) = inr y).
    { intros i' pen sc G. unfold get_fitness_score in G. rewrite Fk in G. destruct (rank i') as [[|x|]|]; try discriminate.
      destruct (py_div none_ (nadd none_ x)) as [|y] eqn:E; inversion G; subst. exists x, y. auto. }
    unfold assess in H. destruct (check_input f v) as [e|cv]; [discriminate|]. destruct (is_conditional f).
    - destruct cv; try discriminate. destruct (fpenalty f); [|discriminate]. destruct (take_obj_score f l) as [|ov]; [discriminate|].
      destruct (violates (conditions f) (snd ov)) as [|bad]; [discriminate|].
      destruct (penalty_execute p (conditions f) (snd ov) gen best) as [|pen]; [discriminate|]. cbv zeta in H.
      destruct (get_fitness_score f _ pen) as [|sc] eqn:E; [discriminate|]. inversion H; subst. apply G in E. destruct E as (x & y & A & -> & B). exists x, y. destruct bad; auto.
    - cbv zeta in H. destruct (get_fitness_score f _ nzero) as [|sc] eqn:E; [discriminate|]. inversion H; subst. apply G in E. destruct E as (x & y & A & -> & B). exists x, y. auto.
  Qed.
  (** The score a new individual gets in a generation and the score an old one keeps.
      The rank of a new individual is the one just assigned in this generation. *)
  Theorem C56_scores : forall ok, NumOrder NO ok -> counting ok -> forall F m fuel c gd0 s0 k c1 gd1 s1 c2 gd2 s2,
    multi_objective ok c F m -> fkind (c_fitness c) = Ffga -> multi_started gd0 s0 ->
    at_generation fuel c gd0 s0 k c1 gd1 s1 -> ga_step fuel c1 gd1 s1 = Ok (c2, gd2) s2 ->
    (forall r, In r (members (population gd2)) -> (next s1 <= r)%nat ->
       exists x y, rank (heap s2 r) = Some (SV1 x) /\ score (heap s2 r) = SV1 y /\ py_div none_ (nadd none_ x) = inr y) /\
    (forall r, In r (members (population gd2)) -> (r < next s1)%nat -> In r (members (population gd1)) /\ score (heap s2 r) = score (heap s1 r)).
  Proof.
    intros ok NL Ct F m fuel c gd0 s0 k c1 gd1 s1 c2 gd2 s2 Mo Fk St0 At R. pose proof (multi_started_init _ _ St0) as I0.
    destruct (multi_generation ok NL Ct F m fuel c gd0 s0 k c1 gd1 s1 c2 gd2 s2 Mo I0 At R) as (M1 & (E1 & _) & kids & els & h1 & h2 & rc & cs & front & St & _).
    destruct (ms_kids _ _ _ _ _ _ _ _ _ _ _ _ _ _ St) as (a & Ek & La & Na).
    assert (Me : forall r, In r (members (population gd2)) -> In r kids \/ In r els).
    { intros r Hr. apply in_app_or. eapply Permutation_in; [exact (ms_perm _ _ _ _ _ _ _ _ _ _ _ _ _ _ St)|auto]. }
    assert (Ie : forall r, In r els -> In r (members (population gd1))) by (intros r Hr; apply (ms_els _ _ _ _ _ _ _ _ _ _ _ _ _ _ St); auto).
    split; intros r Hr Lr; destruct (Me r Hr) as [Kr|Er].
    - destruct (assessed_in _ _ _ _ _ _ _ _ _ _ (ms_eval _ _ _ _ _ _ _ _ _ _ _ _ _ _ St) Kr) as (v & k' & _ & _ & A). eapply assess_ffga; [|exact A]. congruence.
    - apply Ie, (mi_alloc _ _ _ M1) in Er. lia.
    - rewrite Ek in Kr. apply in_seq in Kr. lia.
    - split; auto. destruct (ms_core _ _ _ _ _ _ _ _ _ _ _ _ _ _ St r Lr) as [(_ & _ & A & _) _]. auto.
  Qed.
  Theorem C56_first : forall ok, NumOrder NO ok -> counting ok -> forall F m fuel c gd0 s0 c1 gd1 s1,
    multi_objective ok c F m -> fkind (c_fitness c) = Ffga -> multi_started gd0 s0 -> at_generation fuel c gd0 s0 0 c1 gd1 s1 ->
    forall r, In r (members (population gd1)) ->
      exists x y, rank (heap s1 r) = Some (SV1 x) /\ score (heap s1 r) = SV1 y /\ py_div none_ (nadd none_ x) = inr y.
  Proof.
    intros ok NL Ct F m fuel c gd0 s0 c1 gd1 s1 Mo Fk St0 (gd & s & Hf & S) r Hr. inversion S; subst. pose proof (multi_started_init _ _ St0) as I0.
    destruct Mo as (Mk & Sy & Sz & Os). destruct (multi_first_ok ok F m _ gd0 s0 gd1 s1 NL Ct Mk Sy Sz I0 Hf) as (h2 & rc & cs & front & Fi & _).
    apply (Permutation_in _ (mf_perm _ _ _ _ _ _ _ _ _ _ Fi)) in Hr.
    destruct (assessed_in _ _ _ _ _ _ _ _ _ _ (mf_eval _ _ _ _ _ _ _ _ _ _ Fi) Hr) as (v & k' & _ & _ & A). eapply assess_ffga; eauto.
  Qed.

  (** With FFGA's components no individual is in the population twice. *)
  Lemma ffga_nodup : forall ok, NumOrder NO ok -> counting ok -> forall F m fuel c gd0 s0 k c1 gd1 s1,
    multi_objective ok c F m -> ng_multi (c_newgen c) = true -> plain_selection (c_selection c) -> multi_started gd0 s0 ->
    at_generation fuel c gd0 s0 k c1 gd1 s1 -> NoDup (members (population gd1)).
  Proof.
    intros ok NL Ct F m fuel c gd0 s0 k c1 gd1 s1 Mo Nm Pl St0 (gd & s & Hf & S). pose proof (multi_started_init _ _ St0) as I0.
    destruct (multi_run_inv ok NL Ct F m fuel (fun _ gd' _ => NoDup (members (population gd'))) c gd0 s0 gd s Mo I0 Hf) with (k := k) (c' := c1) (gd' := gd1) (s' := s1) as (_ & _ & X); auto.
    - intros h2 rc cs front Fi _. eapply Permutation_NoDup; [apply Permutation_sym; exact (mf_perm _ _ _ _ _ _ _ _ _ _ Fi)|]. apply (mn_nodup _ _ I0).
    - intros ca ga sa cb gb sb kids els h1 h2 rc cs front (_ & E2 & _ & E4) M1 ND St _.
      eapply Permutation_NoDup; [apply Permutation_sym; exact (ms_perm _ _ _ _ _ _ _ _ _ _ _ _ _ _ St)|].
      destruct (ms_kids _ _ _ _ _ _ _ _ _ _ _ _ _ _ St) as (a & Ek & La & Na).
      assert (NDe : NoDup els).
      { rewrite <- E4 in Nm. rewrite <- E2 in Pl. pose proof (ms_taken _ _ _ _ _ _ _ _ _ _ _ _ _ _ St Nm Pl) as T. unfold multi_taken in T.
        destruct (ng_transfer (c_newgen ca)).
        - destruct T as (rest & El & _). rewrite El in ND. revert ND. clear. intros ND. induction els; [constructor|]. cbn in ND. inversion ND; subst. constructor; auto.
          intros C. apply H1. apply in_or_app; auto.
        - destruct T as (l0 & b & e & El & P & ->). rewrite El in ND. assert (N0 : NoDup l0 /\ ~ In b l0).
          { apply NoDup_remove in ND. rewrite app_nil_r in ND. auto. }
          destruct N0 as [N0 Nb]. pose proof (picks_nodup _ _ _ P N0) as Ne. pose proof (picks_incl _ _ _ P) as Ie.
          eapply Permutation_NoDup; [apply Permutation_cons_append|]. constructor; auto. }
      assert (NDk : NoDup kids) by (rewrite Ek; apply seq_NoDup).
      assert (Di : forall r, In r kids -> ~ In r els).
      { intros r Hr C. apply (ms_els _ _ _ _ _ _ _ _ _ _ _ _ _ _ St) in C. apply (mi_alloc _ _ _ M1) in C. rewrite Ek in Hr. apply in_seq in Hr. lia. }
      clear - NDe NDk Di. induction kids as [|x kids IH]; cbn; auto. inversion NDk; subst. constructor.
      + intros C. apply in_app_or in C. destruct C as [C|C]; auto. apply (Di x); auto. left; auto.
      + apply IH; auto. intros r Hr. apply Di. right; auto.
  Qed.

  (** *** C57 *)
  (** The values at the positions of optimize, and the others, in the order in which
      the objective returns them. *)
  Definition pairs (cl : list string) (values : list num) : list (string * num) := combine cl values.
  Definition objectives (cl : list string) (values : list num) : list num :=
    map snd (filter (fun cv => String.eqb (fst cv) "optimize"%string) (combine cl values)).
  Definition constraints (cl : list string) (values : list num) : list num :=
    map snd (filter (fun cv => negb (String.eqb (fst cv) "optimize"%string)) (combine cl values)).

  Lemma indices_snoc : forall s cl i c, indices_from s i (cl ++ [c]) = (indices_from s i cl ++ (if String.eqb c s then [i + Z.of_nat (length cl)] else []))%list.
  Proof.
    induction cl as [|x cl IH]; intros i c; cbn [indices_from app length].
    - rewrite app_nil_r. cbn. rewrite Z.add_0_r. auto.
    - rewrite IH, <- app_assoc. f_equal. f_equal. f_equal. replace (i + 1 + Z.of_nat (length cl)) with (i + Z.of_nat (Datatypes.S (length cl))) by lia. auto.
  Qed.
  Lemma combine_app_l : forall {A B} (a : list A) (x y : list B), (length a <= length x)%nat -> combine a (x ++ y) = combine a x.
  Proof. induction a as [|z a IH]; intros [|b x] y L; cbn in *; auto; try lia. f_equal. apply IH. lia. Qed.
  Lemma combine_snoc : forall {A B} (a : list A) (z : A) (x : list B) b y, length x = length a -> combine (a ++ [z]) (x ++ b :: y) = (combine a x ++ [(z, b)])%list.
  Proof. induction a as [|z' a IH]; intros z [|b' x] b y L; try discriminate; cbn in *; [destruct y; auto|]. f_equal. apply IH. lia. Qed.
  Lemma combine_snoc_short : forall {A B} (a : list A) (z : A) (x : list B), (length x <= length a)%nat -> combine (a ++ [z]) x = combine a x.
  Proof. induction a as [|z' a IH]; intros z [|b' x] L; cbn in *; auto; try lia. f_equal. apply IH. lia. Qed.
  Lemma skipn_exact : forall {A} (x y : list A), skipn (length x) (x ++ y) = y.
  Proof. induction x as [|a x IH]; intros y; cbn; auto. Qed.
  Lemma skipn_exact1 : forall {A} (x : list A) b y, skipn (length x + 1) (x ++ b :: y) = y.
  Proof. induction x as [|a x IH]; intros b y; cbn; auto. Qed.
  Lemma remove_exact : forall {A} (x : list A) b y, remove_at (length x) (x ++ b :: y) = (x ++ y)%list.
  Proof. unfold remove_at. induction x as [|a x IH]; intros b y; cbn; auto. f_equal. apply IH. Qed.
  Lemma nth_error_rev : forall {A} (l : list A) i x, nth_error l i = Some x -> nth_error (rev l) (length l - 1 - i) = Some x.
  Proof.
    intros A l i x H. assert (L : (i < length l)%nat) by (apply nth_error_Some; congruence).
    rewrite (nth_error_nth' _ x) by (rewrite rev_length; lia). rewrite rev_nth by lia. replace (length l - Datatypes.S (length l - 1 - i))%nat with i by lia.
    f_equal. apply nth_error_nth. auto.
  Qed.
  Lemma pop_positions : forall cl values xs vs, pop_all (rev (indices_from "optimize"%string 0 cl)) values = inr (xs, vs) ->
    xs = rev (objectives cl values) /\ vs = (constraints cl values ++ skipn (length cl) values)%list.
  Proof.
    induction cl as [|c cl IH] using rev_ind; intros values xs vs H.
    - cbn in H. inversion H; subst. auto.
    - rewrite indices_snoc, rev_app_distr in H. rewrite Z.add_0_l in H. unfold objectives, constraints. rewrite app_length. cbn [length].
      destruct (le_lt_dec (length values) (length cl)) as [L|L].
      + rewrite combine_snoc_short by auto. rewrite skipn_all2 by lia. rewrite app_nil_r.
        destruct (String.eqb c "optimize"%string) eqn:E.
        * cbn [rev app pop_all] in H. unfold py_pop in H. unfold py_nth in H.
          destruct (Z.of_nat (length cl) <? 0) eqn:E1; [apply Z.ltb_lt in E1; lia|]. destruct (Z.of_nat (length values) <=? Z.of_nat (length cl)) eqn:E2; [|apply Z.leb_gt in E2; lia].
          rewrite E1 in H. cbn in H. discriminate.
        * cbn [rev app] in H. apply IH in H. destruct H as [-> ->]. rewrite skipn_all2 by lia. rewrite app_nil_r. auto.
      + destruct (nth_error values (length cl)) as [b|] eqn:Nb; [|apply nth_error_None in Nb; lia].
        destruct (nth_error_split _ _ Nb) as (x & y & Ev & Lx). subst values.
        rewrite combine_snoc by auto. rewrite !filter_app, !map_app. cbn [filter fst snd map].
        assert (Sk : skipn (length cl + 1) (x ++ b :: y) = y).
        { rewrite <- Lx. apply skipn_exact1. }
        rewrite Sk. destruct (String.eqb c "optimize"%string) eqn:E; cbn [negb].
        * cbn [rev app pop_all] in H. unfold py_pop in H. rewrite ListLemmas.py_nth_in in H by (rewrite app_length; cbn [length]; lia). rewrite Nat2Z.id, Nb in H.
          destruct (pop_all (rev (indices_from "optimize"%string 0 cl)) (remove_at (length cl) (x ++ b :: y))) as [|[xs' vs']] eqn:R; [discriminate|]. inversion H; subst xs vs'. clear H.
          apply IH in R. assert (Er : remove_at (length cl) (x ++ b :: y) = (x ++ y)%list).
          { rewrite <- Lx. apply remove_exact. }
          rewrite Er in R. destruct R as [-> ->]. unfold objectives, constraints. rewrite combine_app_l by lia. rewrite rev_app_distr, app_nil_r. split; auto.
          f_equal. rewrite <- Lx. apply skipn_exact.
        * cbn [rev app] in H. apply IH in H. unfold objectives, constraints in H. destruct H as [-> ->]. rewrite combine_app_l by lia. rewrite app_nil_r. split; auto.
          rewrite <- app_assoc. f_equal. cbn [app]. rewrite <- Lx. apply skipn_exact.
  Qed.

  (** Evaluation with a penalty: the objective scores are the values at the positions of
      optimize from the last to the first; conditions and penalty see the others in the
      returned order. *)
  Theorem C57_conditional : forall k o t data p cl f cl' gen best r s u s', is_multi_kind k = true -> (1 < length cl)%nat ->
    new_fitness k o t data (PPen p) (Some cl) = inr (f, cl') -> cl' = Some cl /\
    (score (heap s r) = SVNone -> evaluate f gen best r s = Ok u s' ->
     exists values pen, log s' = (genotype (heap s r), OTuple values) :: log s /\ (length values <= length cl)%nat /\
       obj_score (heap s' r) = SVL (rev (objectives cl values)) /\
       penalty_execute p (filter (fun a => negb (String.eqb a "optimize"%string)) cl) (constraints cl values) gen best = inr pen /\
       (k = VegaHyperbola -> forall ts, t = TL ts -> exists ys, score (heap s' r) = SVL ys /\
          length ys = length (objectives cl values) /\
          forall i x, nth_error (objectives cl values) i = Some x ->
            exists tg y, nth_error ts (length ys - 1 - i) = Some tg /\ nth_error ys (length ys - 1 - i) = Some y /\
              py_div none_ (nadd (nadd none_ (nabs (nsub tg x))) pen) = inr y) /\
       (k = VegaHyperbola -> t = TNone -> score (heap s' r) = SVL (map (fun x => nopp (nadd x pen)) (rev (objectives cl values))))).
  Proof.
    intros k o t data p cl f cl' gen best r s u s' Mk L N. unfold new_fitness in N.
    destruct (Z.of_nat (length cl) <=? 1) eqn:E; [apply Z.leb_le in E; lia|]. rewrite Mk in N. inversion N; subst f cl'. clear N. split; auto.
    intros Sn H. apply evaluate_ok in H. destruct H as [[H _]|(_ & v & Cv & A & Lg & _)]; [rewrite Sn in H; discriminate|].
    unfold assess, check_input in A. cbn [fkind is_conditional fpenalty conditions] in A. rewrite Mk in A. destruct v as [x|values]; [discriminate|].
    unfold take_obj_score in A. cbn [fkind idx_opt] in A. rewrite Mk in A.
    destruct (pop_all (rev (indices_from "optimize"%string 0 cl)) values) as [|[xs vs]] eqn:P; [discriminate|]. apply pop_positions in P. destruct P as [-> ->]. cbn [fst snd] in A.
    destruct (violates _ _) as [|bad] eqn:V; [discriminate|].
    assert (Sk : skipn (length cl) values = []).
    { assert (Lv : forall cs vs b, violates cs vs = inr b -> (length vs <= length cs)%nat).
      { clear. induction cs as [|c cs IH]; intros [|v vs] b H; cbn in *; try lia; [discriminate|]. destruct (violates cs vs) eqn:E; [discriminate|]. apply IH in E. lia. }
      apply Lv in V. rewrite app_length in V. destruct (le_lt_dec (length values) (length cl)) as [Lc|Lc]; [apply skipn_all2; lia|]. exfalso.
      assert (Lc' : length (constraints cl values) = length (filter (fun a => negb (String.eqb a "optimize"%string)) cl)).
      { unfold constraints. rewrite map_length. clear - Lc. revert values Lc. induction cl as [|c cl IH]; intros [|v values] Lc; cbn in *; auto; try lia.
        destruct (negb (String.eqb c "optimize"%string)); cbn; rewrite IH by lia; auto. }
      rewrite Lc', skipn_length in V. lia. }
    rewrite Sk, app_nil_r in *. destruct (penalty_execute _ _ _ _ _) as [|pen] eqn:Pe; [discriminate|]. cbv zeta in A.
    destruct (get_fitness_score _ _ pen) as [|sc] eqn:G; [discriminate|]. inversion A as [A']. clear A.
    exists values, pen. split; auto. split.
    { destruct (le_lt_dec (length values) (length cl)); auto. assert (X : length (skipn (length cl) values) = 0%nat) by (rewrite Sk; auto). rewrite skipn_length in X. lia. }
    split; [destruct bad; reflexivity|]. split; auto.
    assert (Ob : forall i', obj_score (if bad then set_feasible false (set_obj_score_f (SVL (rev (objectives cl values))) i') else set_obj_score_f (SVL (rev (objectives cl values))) i') = SVL (rev (objectives cl values))) by (intros; destruct bad; reflexivity).
    assert (Sc : score (set_score sc (if bad then set_feasible false (set_obj_score_f (SVL (rev (objectives cl values))) (heap s r)) else set_obj_score_f (SVL (rev (objectives cl values))) (heap s r))) = sc) by reflexivity.
    rewrite Sc. clear Sc A'. split.
    - intros -> ts ->. unfold get_fitness_score in G. cbn [fkind obj_value] in G. rewrite Ob in G.
      destruct (hypers ts (rev (objectives cl values)) pen) as [|ys] eqn:Hy; [discriminate|]. inversion G; subst sc. exists ys. split; auto.
      assert (Hh : forall xs ts ys, hypers ts xs pen = inr ys -> length ys = length xs /\ forall i x, nth_error xs i = Some x ->
        exists tg y, nth_error ts i = Some tg /\ nth_error ys i = Some y /\ py_div none_ (nadd (nadd none_ (nabs (nsub tg x))) pen) = inr y).
      { clear. induction xs as [|x xs IH]; intros ts ys H; [destruct ts; inversion H; subst; (split; [reflexivity|intros [|i] x Hx; discriminate Hx])|].
        destruct ts as [|t ts]; [discriminate|]. cbn [hypers] in H. destruct (hyper t x pen) as [|y] eqn:E; [discriminate|]. destruct (hypers ts xs pen) as [|ys'] eqn:E2; inversion H; subst. apply IH in E2. destruct E2 as [L E2].
        split; [cbn; auto|]. intros [|i] z Hz; cbn in Hz |- *; [inversion Hz; subst; eauto|auto]. }
      apply Hh in Hy. destruct Hy as [Ly Hy]. rewrite rev_length in Ly. split; auto. intros i x Hi. rewrite Ly. apply Hy. apply nth_error_rev; auto.
    - intros -> ->. unfold get_fitness_score in G. cbn [fkind obj_value] in G. rewrite Ob in G. inversion G. reflexivity.
  Qed.
  (** Without a penalty the values are kept in the returned order. *)
  Theorem C57_plain : forall k o t data conds f cl' gen best r s u s', is_multi_kind k = true ->
    new_fitness k o t data PNone conds = inr (f, cl') -> cl' = conds /\
    (score (heap s r) = SVNone -> evaluate f gen best r s = Ok u s' ->
     exists values, log s' = (genotype (heap s r), OTuple values) :: log s /\ obj_score (heap s' r) = SVL values /\
       (k = VegaHyperbola -> forall ts, t = TL ts -> exists ys, score (heap s' r) = SVL ys /\ length ys = length values /\
          forall i x, nth_error values i = Some x -> exists tg y, nth_error ts i = Some tg /\ nth_error ys i = Some y /\
            py_div none_ (nadd (nadd none_ (nabs (nsub tg x))) nzero) = inr y) /\
       (k = VegaHyperbola -> t = TNone -> score (heap s' r) = SVL (map (fun x => nopp (nadd x nzero)) values))).
  Proof.
    intros k o t data conds f cl' gen best r s u s' Mk N. unfold new_fitness in N. inversion N; subst f cl'. clear N. split; auto.
    intros Sn H. apply evaluate_ok in H. destruct H as [[H _]|(_ & v & Cv & A & Lg & _)]; [rewrite Sn in H; discriminate|].
    unfold assess, check_input in A. cbn [fkind is_conditional] in A. rewrite Mk in A. destruct v as [x|values]; [discriminate|]. cbv zeta in A.
    destruct (get_fitness_score _ _ nzero) as [|sc] eqn:G; [discriminate|]. inversion A as [A']. clear A. exists values. split; auto. split; [reflexivity|].
    cbn [score set_score]. split.
    - intros -> ts ->. unfold get_fitness_score in G. cbn [fkind obj_value obj_score set_obj_score_f] in G.
      destruct (hypers ts values nzero) as [|ys] eqn:Hy; [discriminate|]. inversion G; subst sc. exists ys. split; auto.
      clear - Hy. revert ts ys Hy. induction values as [|x xs IH]; intros ts ys H; [destruct ts; inversion H; subst; (split; [reflexivity|intros [|i] x Hx; discriminate Hx])|].
      destruct ts as [|t ts]; [discriminate|]. cbn [hypers] in H. destruct (hyper t x nzero) as [|y] eqn:E; [discriminate|]. destruct (hypers ts xs nzero) as [|ys'] eqn:E2; inversion H; subst. apply IH in E2. destruct E2 as [L E2].
      split; [cbn; auto|]. intros [|i] z Hz; cbn in Hz |- *; [inversion Hz; subst; eauto|auto].
    - intros -> ->. unfold get_fitness_score in G. cbn [fkind obj_value obj_score set_obj_score_f] in G. inversion G. reflexivity.
  Qed.
End Scores.

(** *** Exact arithmetic *)
Section Exact.
  Local Existing Instance Qops.
  Lemma ffga_value : forall n (y : Q), py_div (@none_ Qops) (nadd none_ (ones n)) = inr y -> (y == 1 / (2 + inject_Z (Z.of_nat n)))%Q.
  Proof.
    intros n y H. unfold py_div in H. destruct (neqb (nadd none_ (ones n)) nzero); [discriminate|]. inversion H as [E]. clear H E.
    change (@ndiv_raw Qops) with Qdiv. change (@none_ Qops) with 1%Q. change (@nadd Qops) with Qplus. change (@num Qops) with Q.
    pose proof (ones_value n) as V. change (@num Qops) with Q in V. rewrite V, inject_Z_plus. change (inject_Z 1) with 1%Q.
    assert (0 <= inject_Z (Z.of_nat n))%Q by (change 0%Q with (inject_Z 0); rewrite <- Zle_Qle; lia). field. lra.
  Qed.
  (** The score of an individual is set once, in the generation in which it is new, to
      1 / (2 + the number of members dominating it then). *)
  Theorem C56_exact : forall F m fuel c gd0 s0 k c1 gd1 s1 c2 gd2 s2,
    multi_objective (fun _ => True) c F m -> fkind (c_fitness c) = Ffga -> ng_multi (c_newgen c) = true -> plain_selection (c_selection c) ->
    multi_started gd0 s0 -> at_generation fuel c gd0 s0 k c1 gd1 s1 -> ga_step fuel c1 gd1 s1 = Ok (c2, gd2) s2 ->
    forall r, In r (members (population gd2)) -> (next s1 <= r)%nat ->
    exists ds y, NoDup ds /\ (forall d, In d ds <-> In d (members (population gd2)) /\ dominates (F (phen (heap s2) d)) (F (phen (heap s2) r))) /\
      score (heap s2 r) = SV1 y /\ (y == 1 / (2 + inject_Z (Z.of_nat (length ds))))%Q.
  Proof.
    intros F m fuel c gd0 s0 k c1 gd1 s1 c2 gd2 s2 Mo Fk Nm Pl St0 At R r Hr Lr.
    destruct (C56_scores _ Qorder counting_exact F m fuel c gd0 s0 k c1 gd1 s1 c2 gd2 s2 Mo Fk St0 At R) as [A _].
    destruct (A r Hr Lr) as (x & y & Rx & Sy & D).
    assert (At2 : at_generation fuel c gd0 s0 (Datatypes.S k) c2 gd2 s2) by (destruct At as (gd & s & Hf & S); exists gd, s; split; auto; econstructor; eauto).
    pose proof (ffga_nodup _ Qorder counting_exact F m fuel c gd0 s0 (Datatypes.S k) c2 gd2 s2 Mo Nm Pl St0 At2) as ND.
    destruct (multi_generation _ Qorder counting_exact F m fuel c gd0 s0 k c1 gd1 s1 c2 gd2 s2 Mo (multi_started_init _ _ St0) At R) as (_ & _ & kids & els & h1 & h2 & rc & cs & front & _ & M2).
    pose proof (mi_ranked _ _ _ M2 r Hr) as W. rewrite Rx in W. inversion W as [Ex]. rewrite Ex in D. apply ffga_value in D.
    exists (filter (fun d => dom F (phen (heap s2)) d r) (members (population gd2))), y. split; [apply NoDup_filter; auto|]. split; [|split; auto].
    - intros d. rewrite filter_In, dom_true. reflexivity.
    - rewrite D. unfold rank_count, occ. apply (NoDup_count_occ' Nat.eq_dec) with (x := r) in ND; auto. rewrite ND, Nat.mul_1_l. reflexivity.
  Qed.
  (** At every generation every score is in (0, 1/2]. *)
  Theorem C56_bound : forall F m fuel c gd0 s0 k c1 gd1 s1,
    multi_objective (fun _ => True) c F m -> fkind (c_fitness c) = Ffga -> multi_started gd0 s0 -> at_generation fuel c gd0 s0 k c1 gd1 s1 ->
    forall r, In r (members (population gd1)) -> exists y, score (heap s1 r) = SV1 y /\ (0 < y /\ y <= 1 # 2)%Q.
  Proof.
    intros F m fuel c gd0 s0 k c1 gd1 s1 Mo Fk St0 (gd & s & Hf & S). pose proof (multi_started_init _ _ St0) as I0.
    assert (B : forall n y, py_div (@none_ Qops) (nadd none_ (ones n)) = inr y -> (0 < y /\ y <= 1 # 2)%Q).
    { intros n y H. apply ffga_value in H. assert (0 <= inject_Z (Z.of_nat n))%Q by (change 0%Q with (inject_Z 0); rewrite <- Zle_Qle; lia).
      change (@num Qops) with Q in *. rewrite H. split; [apply Qlt_shift_div_l; lra|apply Qle_shift_div_r; lra]. }
    induction S as [|k c1 gd1 s1 c2 gd2 s2 S IH R].
    - intros r Hr. destruct (C56_first _ Qorder counting_exact F m fuel c gd0 s0 c gd s Mo Fk St0 (ex_intro _ gd (ex_intro _ s (conj Hf (steps_0 _ _ _ _)))) r Hr) as (x & y & Rx & Sy & D).
      destruct Mo as (Mk & Sy0 & Sz & Os). destruct (multi_first_ok _ F m _ gd0 s0 gd s Qorder counting_exact Mk Sy0 Sz I0 Hf) as (h2 & rc & cs & front & _ & M2).
      pose proof (mi_ranked _ _ _ M2 r Hr) as W. rewrite Rx in W. inversion W as [Ex]. rewrite Ex in D. exists y. split; auto. eapply B; eauto.
    - intros r Hr. assert (At : at_generation fuel c gd0 s0 k c1 gd1 s1) by (exists gd, s; auto).
      destruct (C56_scores _ Qorder counting_exact F m fuel c gd0 s0 k c1 gd1 s1 c2 gd2 s2 Mo Fk St0 At R) as [A1 A2].
      destruct (le_lt_dec (next s1) r) as [L|L].
      + destruct (A1 r Hr L) as (x & y & Rx & Sy & D).
        destruct (multi_generation _ Qorder counting_exact F m fuel c gd0 s0 k c1 gd1 s1 c2 gd2 s2 Mo I0 At R) as (_ & _ & kids & els & h1 & h2 & rc & cs & front & _ & M2).
        pose proof (mi_ranked _ _ _ M2 r Hr) as W. rewrite Rx in W. inversion W as [Ex]. rewrite Ex in D. exists y. split; auto. eapply B; eauto.
      + destruct (A2 r Hr L) as [I E]. rewrite E. apply IH; auto.
  Qed.

  Lemma observe_inv : forall {A B} (g : A -> st -> B) (o : outcome A) b, observe g o = Some b -> exists a s', o = Ok a s' /\ g a s' = b.
  Proof. intros A B g o b H. destruct o as [a s'| |]; inversion H. eauto. Qed.
  (** A run in which a dominated survivor keeps a better score than a member of the
      front: individual 54 with values (3, 6) has rank 4 and score 1/5, individual 31
      with values (2, 5) has rank 1 and score 1/7. *)
  Definition later_world : st := mkSt (fun _ => blank_individ) 0 (fun _ => 0) (fun k => wide (k + 8)) None (fun _ _ => 0) [].
  Example C56_case : observe (fun r s => (existsb (Nat.eqb 31) (members (population (fst r))), existsb (Nat.eqb 54) (members (population (fst r))),
        trade_off (phen (heap s) 31), trade_off (phen (heap s) 54), (rank (heap s 31), rank (heap s 54)), (score (heap s 31), score (heap s 54))))
      (ffga 50 (trade_cf "random" 11 3) true two_genes later_world) =
    Some (true, true, [2; 5]%Q, [3; 6]%Q, (Some (q 1), Some (q 4)), (q (1#7), q (1#5))).
  Proof. run. Qed.
  Theorem C56_stale_score : exists fuel cf gray gens s gd cl s', ffga fuel cf gray gens s = Ok (gd, cl) s' /\
    exists good bad x y, In good (members (population gd)) /\ In bad (members (population gd)) /\
      dominates (trade_off (phen (heap s') good)) (trade_off (phen (heap s') bad)) /\
      rank (heap s' good) = Some (SV1 1%Q) /\ score (heap s' good) = SV1 x /\ score (heap s' bad) = SV1 y /\ (x < y)%Q.
  Proof.
    destruct (observe_inv _ _ _ C56_case) as ([gd cl] & s' & E & G). exists 50%nat, (trade_cf "random" 11 3), true, two_genes, later_world, gd, cl, s'.
    split; [exact E|]. clear E. cbn [fst] in G. do 5 apply pair_equal_spec in G as [G ?]. repeat match goal with H : (_, _) = (_, _) |- _ => apply pair_equal_spec in H; destruct H end.
    rename G into G1, H3 into G2. exists 31%nat, 54%nat, (1#7)%Q, (1#5)%Q. apply existsb_exists in G1, G2. destruct G1 as (a & I1 & E1). destruct G2 as (b & I2 & E2).
    apply Nat.eqb_eq in E1, E2. subst a b. split; [exact I1|]. split; [exact I2|]. split; [|split; [assumption|split; [assumption|split; [assumption|reflexivity]]]].
    rewrite H2, H1. split; cbn; auto.
  Qed.

  (** Three values, two of them objectives, with targets 1 and 10: the objectives reach
      their targets exactly, but with a penalty each is compared with the other's. *)
  Definition three_conds : list string := ["optimize"; "<="; "optimize"]%string.
  Definition three_obj : objfun := Obj1 (fun _ _ => inr (OTuple [1; 3; 10]%Q)).
  Example C57_conditional_case :
    new_fitness VegaHyperbola three_obj (TL [1; 10]%Q) None (PPen (Dynamic 1%Q 1%Q (natural 1) (natural 1))) (Some three_conds) =
      inr (mkFit VegaHyperbola three_obj (TL [1; 10]%Q) None (Some (Dynamic 1%Q 1%Q (natural 1) (natural 1))) ["<="]%string true [2; 0], Some three_conds) /\
    objectives three_conds [1; 3; 10]%Q = [1; 10]%Q /\ constraints three_conds [1; 3; 10]%Q = [3]%Q /\
    observe (fun _ s => (obj_score (heap s 0), score (heap s 0), feasible (heap s 0)))
      (evaluate (mkFit VegaHyperbola three_obj (TL [1; 10]%Q) None (Some (Dynamic 1%Q 1%Q (natural 1) (natural 1))) ["<="]%string true [2; 0]) 1 BNone 0
        (world [ind (ints [4]) SVNone] [])) = Some (SVL [10; 1]%Q, SVL [1#13; 1#13]%Q, false).
  Proof. split; [run|]. split; [run|]. split; run. Qed.
  Example C57_plain_case :
    observe (fun _ s => (obj_score (heap s 0), score (heap s 0)))
      (evaluate (mkFit VegaHyperbola three_obj (TL [1; 3; 10]%Q) None None three_conds false []) 1 BNone 0
        (world [ind (ints [4]) SVNone] [])) = Some (SVL [1; 3; 10]%Q, SVL [1; 1; 1]%Q).
  Proof. run. Qed.
End Exact.

Print Assumptions C56_scores.
Print Assumptions C56_first.
Print Assumptions C56_exact.
Print Assumptions C56_bound.
Print Assumptions C56_stale_score.
Print Assumptions C57_conditional.
Print Assumptions C57_plain.
