(** Property C84: CombinatoryGA with transfer "best" can stay for ever around tours whose
    offspring are all worse: its chance of reporting the optimum need not tend to 1. *)
From Coq Require Import String.
From Coq Require Import ZArith QArith Qround Qabs Qminmax List Bool Lia Lqa Permutation.
From Verif Require Import AssessProofs Spec Num State Binary Population GaData Crossover Mutation Selection Penalty Fitness NewGeneration Driver
  ListLemmas Rnd Exec Laws CodingProofs PropCoding PopulationProofs CrossoverProofs MutationProofs SelectionProofs VegaProofs
  NewGenProofs UpdateProofs FitnessProofs StepProofs RunProofs Runs PropCrossover PropRun PropBest PropFitness DomainProofs ClosureProofs PropClosure SafetyProofs
  PropSelection OptimizeProofs PropDomain PropConditional PropResume ReachProofs PropReach Fuelless SeedProofs Chance ChanceProofs SelChanceProofs PropSelChance PropMutChance
  ChanceRun ChanceRunProofs ConvergeProofs PropConverge CompareProofs TrapProofs Demo.
Import ListNotations.
Open Scope string_scope.
Open Scope list_scope.
Open Scope Z_scope.
Local Existing Instance Qops.

(** *** The statement *)
(** What CombinatoryGA makes of two tours of length [k]: an order crossover child, left as
    it is or with one gene moved. *)
Definition offspring (k : Z) (p1 p2 x : list gv) : Prop :=
  exists y, order_child_of gv_eqb (Z.to_nat k) p1 p2 y /\ (x = y \/ moved y x).
(** All offspring of the tours of [home] are worse than all of them. *)
Definition isolated (t : obj_target) (f : list gv -> Q) (k : Z) (home : list (list gv)) : Prop :=
  forall p1 p2 x h, In p1 home -> In p2 home -> In h home -> offspring k p1 p2 x -> as_good t (f h) (f x) = false.
(** Fewer children than competitors in a tournament, transfer "best". *)
Definition few_children (cf : config) : Prop :=
  cf_transfer cf = "best" /\ Qtrunc (cf_children_percent cf * inject_Z (cf_num_individ cf)) < cf_tournament_size cf.
(** The tours the run evaluates. *)
Definition from_home (k : Z) (home : list (list gv)) (pt : list gv) : Prop :=
  In pt home \/ exists p1 p2, In p1 home /\ In p2 home /\ offspring k p1 p2 pt.

Lemma ints_same : forall a b, gvs_eqb (map (@GInt Qops) a) (map GInt b) = true -> a = b.
Proof.
  induction a as [|x a IH]; intros [|y b] H; auto; try discriminate H. cbn [map gvs_eqb] in H. apply andb_true_iff in H. destruct H as [H1 H2].
  cbn in H1. f_equal; auto. unfold gv_eqb in H1. cbn in H1. apply Z.eqb_eq. exact H1.
Qed.
Lemma tours_same : forall a b k x y, arrangement a b k x -> arrangement a b k y -> gvs_eqb x y = true -> x = y.
Proof. intros a b k x y (zs & -> & _) (ws & -> & _) H. apply ints_same in H. subst. reflexivity. Qed.

(** The worst score of [home]. *)
Lemma worst_score : forall ft (f : list gv -> Q) home, (forall v, exists y, score_of ft v nzero = inr y) -> home <> [] ->
  exists h0 theta, In h0 home /\ score_of ft (f h0) nzero = inr theta /\ forall h y, In h home -> score_of ft (f h) nzero = inr y -> nltb y theta = false.
Proof.
  intros ft f home T N. destruct home as [|h home]; [congruence|]. clear N. induction home as [|h' home IH].
  - destruct (T (f h)) as (y & E). exists h, y. split; [left; auto|]. split; auto. intros h1 y1 [<-|[]] E1. assert (y1 = y) by congruence. subst. apply (no_irrefl _ _ Qorder). exact I.
  - destruct IH as (h0 & th & I0 & E0 & K). destruct (T (f h')) as (y & E). destruct (nltb y th) eqn:L.
    + exists h', y. split; [right; left; auto|]. split; auto. intros h1 y1 I1 E1. destruct I1 as [<-|[<-|I1]].
      * pose proof (K h y1 (or_introl eq_refl) E1) as K1. destruct (nltb y1 y) eqn:L1; auto. pose proof (no_trans _ _ Qorder y1 y th I I I L1 L). congruence.
      * assert (y1 = y) by congruence. subst. apply (no_irrefl _ _ Qorder). exact I.
      * pose proof (K h1 y1 (or_intror I1) E1) as K1. destruct (nltb y1 y) eqn:L1; auto. pose proof (no_trans _ _ Qorder y1 y th I I I L1 L). congruence.
    + exists h0, th. split; [destruct I0 as [I0|I0]; [left|right; right]; auto|]. split; auto. intros h1 y1 I1 E1. destruct I1 as [<-|[<-|I1]].
      * apply (K h); auto. left; auto.
      * assert (y1 = y) by congruence. subst. auto.
      * apply (K h1); auto. right; auto.
Qed.
Lemma order_offspring : forall a b k x m' p1 p2 y, 3 <= k -> arrangement a b k p1 -> arrangement a b k p2 ->
  near Order (MutCombi Movement m') (GenOrd a b k) (Z.to_nat k) p1 p2 x -> y = x ->
  arrangement a b k x /\ (offspring k p1 p2 y \/ offspring k p2 p1 y).
Proof.
  intros a b k x m' p1 p2 y Hk A1 A2 (z & m1 & Ma & Ss & Mu) ->.
  assert (Em : exists l1, m1 = MutCombi Movement l1). { destruct m1; cbn in Ss; try discriminate Ss. rewrite Ss. eauto. }
  destruct Em as (l1 & ->). clear Ss.
  assert (Dz : arrangement a b k z).
  { assert (L1 : length p1 = Z.to_nat k) by (destruct A1 as (zs & -> & L & _); rewrite map_length; lia). rewrite <- L1 in Ma.
    exact (domain_made Order (MutCombi Movement l1) (GenOrd a b k) p1 p2 p1 z (belongs_ord _ _ _ _ _) A1 A2 A1 Ma). }
  split; [exact (domain_mutated Order (MutCombi Movement l1) (GenOrd a b k) z x (belongs_ord _ _ _ _ _) Dz Mu)|].
  destruct Ma as (s & [c1 c2] & s' & R & Hc). cbn [crossover] in R. destruct A1 as (z1 & -> & L1 & N1 & _). destruct A2 as (z2 & -> & L2 & N2 & _).
  assert (Go : forall zs, Forall (gene_ok (ok := fun _ : num => True)) (map (@GInt Qops) zs)) by (intros; apply Forall_forall; intros; apply qgene_ok).
  assert (O := C14_order _ Qorder (map GInt z1) (map GInt z2) (Z.to_nat k) ltac:(rewrite map_length; lia) ltac:(rewrite map_length; lia) ltac:(lia) (Go z1) (Go z2)
    (proj2 (ints_dup_free z1) N1) (proj2 (ints_dup_free z2) N2)).
  apply (possible_sound _ _ _ _ _ O) in R. destruct R as [(i & j & Hi & Hj & O1 & O2) _]. cbn [fst snd] in *. destruct Hc as [-> | ->]; [left; exists c1|right; exists c2]; (split; [exists i, j; auto|exact Mu]).
Qed.

(** *** From the population the run starts with *)
Lemma launched_trap : forall fuel cf a b k (f : list gv -> Q) home s c gd0 s0, valid_common cf -> few_children cf -> 3 <= k ->
  launched cf (GenOrd a b k) Order (new_combi Movement) s c gd0 s0 ->
  Z.of_nat (length home) = cf_num_individ cf -> NoDup home -> Forall (arrangement a b k) home -> genos s0 (members (population gd0)) = home ->
  measures cf f (arrangement a b k) -> isolated (cf_obj_value cf) f k home ->
  forall j c' gd' s', at_generation fuel c gd0 s0 j c' gd' s' ->
  exists calls, log s' = calls ++ log s /\ Forall (fun x => from_home k home (fst x)) calls /\ forall h, In h home -> exists v, In (h, v) calls.
Proof.
  intros fuel cf a b k f home s c gd0 s0 (V & Pn & Tg) (Tb & Fc) Hk La Lh Nd Fa Eh Me Is j c' gd' s' A.
  destruct (launched_first _ _ _ _ _ _ _ _ La) as (_ & _ & St & En & Ec & _ & _ & Et & _ & El).
  destruct La as (p & s1 & p' & ft & cl & m & ng & Sp & Ds & Fi & Nf & Nm & Nn & -> & ->). pose proof V as ((Ht1 & Ht2) & Hc & Htr & Hl).
  destruct (set_params_ok _ _ _ _ _ _ _ Sp Fi) as (Pg' & Np & _ & Lm). cbn [prepare] in Pg'. assert (Eg : gspec_of p' = GenOrd a b k) by congruence. clear Pg'.
  set (gd0 := new_gadata false (cf_num_generations cf) (cf_children_percent cf) (resolved_stop cf) p') in *.
  set (c := mkComps ft (SelTournament (cf_tournament_size cf)) Order m ng) in *.
  rewrite Pn in Nf. destruct (new_fitness_plain _ _ _ _ _ _ _ _ Nf (or_introl eq_refl)) as (Fk & Nc & _ & Eo & Ev & Ei).
  assert (Em : exists x, m = MutCombi Movement x). { unfold new_combi in Nm. repeat match type of Nm with context [match ?q with _ => _ end] => destruct q end; try discriminate Nm; inversion Nm; eauto. }
  destruct Em as (lv & ->).
  assert (Si : single c).
  { split; [|split]; auto; [|exact I]. cbn. unfold new_newgen in Nn. destruct (String.eqb _ _); [inversion Nn; reflexivity|]. destruct (String.eqb _ _); inversion Nn; reflexivity. }
  assert (Tr : ng_transfer (c_newgen c) = TBest) by (unfold new_newgen in Nn; rewrite Tb in Nn; cbn in Nn; unfold c; cbn [c_newgen]; inversion Nn; reflexivity).
  assert (Tot : forall v, exists y, score_of ft v nzero = inr y).
  { intros v. unfold score_of. rewrite Ev. destruct (cf_obj_value cf) as [|tg|]; [eauto| |contradiction]. apply hyper_runs. unfold nzero. cbn. unfold Qle. cbn. lia. }
  assert (Hne : home <> []) by (intros ->; cbn in Lh; lia).
  destruct (worst_score ft f home Tot Hne) as (h0 & theta & Ih0 & Eth & Kth).
  rewrite Forall_forall in Fa. set (t := cf_tournament_size cf) in *. set (mm := Qtrunc (cf_children_percent cf * inject_Z (cf_num_individ cf))) in *.
  assert (An : forall pt kk v, arrangement a b k pt -> called ft kk pt = inr v -> v = OScalar (f pt)).
  { intros pt kk v Ap C. apply called_answers in C. specialize (Me kk pt Ap). rewrite Eo, Ei in C. clear - C Me. inversion C; subst; inversion Me; congruence. }
  assert (Sc : forall v gen best i i', assess ft gen best (OScalar v) i = inr i' -> exists y, score i' = SV1 y /\ score_of ft v nzero = inr y).
  { intros v gen best i i' E. rewrite assess_scalar in E; auto. destruct (score_of ft v nzero) as [|y]; [discriminate E|]. inversion E; subst. exists y. split; auto. }
  assert (Gp : gspec_of (population gd0) = GenOrd a b k) by exact Eg.
  pose proof (trap_kept (fun _ => True) Qorder fuel c gd0 s0 Si (good_scores_any _ Fk) St t mm eq_refl Tr) as Tk.
  assert (Lmm : Z.of_nat (length (members (population gd0))) = num_individ (population gd0)).
  { rewrite En, <- Lh, <- Eh. unfold genos. rewrite map_length. reflexivity. }
  specialize (Tk Lmm ltac:(rewrite En; lia)).
  assert (Pw : pairs_wanted None gd0 mm) by (unfold pairs_wanted; cbn; rewrite Np; reflexivity).
  specialize (Tk Pw ltac:(lia) (fun x => In x home) theta I).
  specialize (Tk (fun x y Hx Hy => tours_same a b k x y (Fa x Hx) (Fa y Hy)) (Z.to_nat k)).
  specialize (Tk ltac:(intros x Hx; destruct (Fa x Hx) as (zs & -> & L & _); rewrite map_length; lia)).
  rewrite Gp in Tk. cbn [c_crossover c_mutation c_fitness c] in Tk.
  assert (Nr : forall p1 p2 x, In p1 home -> In p2 home -> near Order (MutCombi Movement lv) (GenOrd a b k) (Z.to_nat k) p1 p2 x ->
    arrangement a b k x /\ (offspring k p1 p2 x \/ offspring k p2 p1 x)) by (intros p1 p2 x H1 H2 N; eapply order_offspring; eauto).
  assert (Sp1 : forall geno pt, spec_point (GenOrd a b k) geno pt -> pt = geno) by (intros geno pt H; exact H).
  specialize (Tk ltac:(intros p1 p2 x H1 H2 N; destruct (Nr p1 p2 x H1 H2 N) as ((zs & -> & L & _) & _); rewrite map_length; lia)).
  assert (Hi : forall geno pt kk v gen best i i', In geno home -> spec_point (GenOrd a b k) geno pt -> called ft kk pt = inr v ->
    assess ft gen best v i = inr i' -> exists x, score i' = SV1 x /\ nltb x theta = false).
  { intros geno pt kk v gen best i i' Hg S1 C E. apply Sp1 in S1. subst pt. rewrite (An _ _ _ (Fa _ Hg) C) in E. destruct (Sc _ _ _ _ _ E) as (y & Ey & Sy). exists y. split; auto. eapply Kth; eauto. }
  assert (Lo : forall g1 g2 geno pt kk v gen best i i', In g1 home -> In g2 home -> near Order (MutCombi Movement lv) (GenOrd a b k) (Z.to_nat k) g1 g2 geno -> spec_point (GenOrd a b k) geno pt ->
    called ft kk pt = inr v -> assess ft gen best v i = inr i' -> exists x, score i' = SV1 x /\ nltb x theta = true).
  { intros g1 g2 geno pt kk v gen best i i' H1 H2 N S1 C E. apply Sp1 in S1. subst pt. destruct (Nr _ _ _ H1 H2 N) as [Ag Of]. rewrite (An _ _ _ Ag C) in E. destruct (Sc _ _ _ _ _ E) as (y & Ey & Sy).
    exists y. split; auto. destruct (nltb y theta) eqn:L; auto. exfalso. pose proof (score_no_better ft (f geno) (f h0) y theta Sy Eth L) as Nb. rewrite Ev in Nb. apply as_good_iff in Nb.
    assert (W : as_good (cf_obj_value cf) (f h0) (f geno) = false) by (destruct Of as [Of|Of]; [exact (Is g1 g2 geno h0 H1 H2 Ih0 Of)|exact (Is g2 g1 geno h0 H2 H1 Ih0 Of)]). congruence. }
  specialize (Tk Hi Lo). assert (In0 : all_in (fun x => In x home) gd0 s0) by (intros r Hr; rewrite <- Eh; unfold genos; apply (in_map (fun r => genotype (heap s0 r))); auto).
  specialize (Tk In0 ltac:(rewrite Eh; exact Nd) j c' gd' s' A). destruct Tk as (_ & _ & _ & _ & _ & _ & _ & _ & _ & _ & calls & Elog & Fcalls & Each).
  exists calls. rewrite <- El. split; [exact Elog|]. split.
  - eapply Forall_impl; [|exact Fcalls]. intros x (geno & S1 & Hg). rewrite Gp in S1. apply Sp1 in S1. subst geno. destruct Hg as [Hg|(g1 & g2 & H1 & H2 & N)]; [left; auto|right].
    rewrite Gp in N. destruct (Nr _ _ _ H1 H2 N) as [_ [Of|Of]]; eauto 6.
  - intros h Hh. rewrite <- Eh in Hh. unfold genos in Hh. apply in_map_iff in Hh. destruct Hh as (r & <- & Hr). destruct (Each r Hr) as (v & Iv). exists v. rewrite Gp in Iv. exact Iv.
Qed.

(** What such a run reports. *)
Lemma reports_home : forall fuel cf a b k (f : list gv -> Q) home s gd' cl s' calls, valid_common cf -> 3 <= k -> Forall (arrangement a b k) home ->
  measures cf f (arrangement a b k) -> isolated (cf_obj_value cf) f k home -> home <> [] ->
  combinatory_ga fuel cf a b k s = Ok (gd', cl) s' -> log s' = calls ++ log s -> Forall (fun x => from_home k home (fst x)) calls -> (forall h, In h home -> exists v, In (h, v) calls) ->
  Forall (fun x => arrangement a b k (fst x)) calls ->
  exists i gen, best_solution gd' = BSingle i gen /\ In (genotype i) home /\ obj_score i = SV1 (f (genotype i)).
Proof.
  intros fuel cf a b k f home s gd' cl s' calls (V & Pn & Tg) Hk Fa Me Is Ne H El Fh Each Far.
  pose proof (C37_best_point fuel cf (GenOrd a b k) (SelTournament (cf_tournament_size cf)) Order (new_combi Movement) s gd' cl s' I Pn H) as (calls1 & i & gen & gs & pt & x & El1 & Pg & Eb & Sp & Iv & Eo & K).
  assert (calls1 = calls) by (rewrite El1 in El; apply app_inv_tail in El; auto). subst calls1. clear El1. cbn [prepare] in Pg. inversion Pg; subst gs. clear Pg. cbn [spec_point] in Sp. subst pt.
  assert (Val : forall pt v, In (pt, v) calls -> v = OScalar (f pt)).
  { intros pt v Ic. pose proof H as H'. apply optimize_run in H'; [|repeat split; auto; exact I]. destruct H' as (p & s1 & p' & s2 & ft & m & ng & c' & _ & _ & _ & Nf & _ & _ & L & _ & Si & St & R).
    apply run_ends in R. destruct R as (j & A).
    destruct (C48_run _ Qorder _ _ _ _ Si (good_scores_any _ (proj1 Si)) St _ _ _ _ A) as (cs & _ & Ec & Ge). rewrite L, El in Ec. apply app_inv_tail in Ec.
    assert (Ic' : In (pt, v) cs) by (apply in_rev; rewrite <- Ec; exact Ic). apply In_nth_error in Ic'. destruct Ic' as (q & Ej). apply Ge in Ej. cbn [c_fitness] in Ej.
    rewrite Pn in Nf. destruct (new_fitness_plain _ _ _ _ _ _ _ _ Nf (or_introl eq_refl)) as (_ & _ & _ & Eob & _ & Ein). rewrite Forall_forall in Far. specialize (Far _ Ic). cbn [fst] in Far.
    pose proof (Me (length (log s2) + q)%nat pt Far) as An. rewrite Eob, Ein in Ej. clear - Ej An. inversion Ej; subst; inversion An; congruence. }
  pose proof (Val _ _ Iv) as Ex. assert (x = f (genotype i)) by congruence. subst x. clear Ex.
  exists i, gen. split; [exact Eb|]. split; [|exact Eo]. rewrite Forall_forall in Fh. destruct (Fh _ Iv) as [Hi|(p1 & p2 & H1 & H2 & Of)]; [exact Hi|]. exfalso. cbn [fst] in Of.
  destruct (Each p1 H1) as (v & Ip). destruct (K _ _ Ip) as (z & Ez & Nb). pose proof (Val _ _ Ip) as Ev. assert (z = f p1) by congruence. subst z. apply as_good_iff in Nb.
  rewrite (Is p1 p2 (genotype i) p1 H1 H2 H1 Of) in Nb. discriminate Nb.
Qed.

(** *** A run from given tours *)
Theorem C84_combinatory : forall fuel cf a b k (f : list gv -> Q) s gd' cl s', valid_common cf -> few_children cf -> 3 <= k ->
  Z.of_nat (length (cf_input_population cf)) = cf_num_individ cf -> NoDup (cf_input_population cf) -> Forall (arrangement a b k) (cf_input_population cf) ->
  measures cf f (arrangement a b k) -> isolated (cf_obj_value cf) f k (cf_input_population cf) ->
  combinatory_ga fuel cf a b k s = Ok (gd', cl) s' ->
  exists calls, log s' = calls ++ log s /\ Forall (fun x => from_home k (cf_input_population cf) (fst x)) calls /\
  exists i gen, best_solution gd' = BSingle i gen /\ In (genotype i) (cf_input_population cf) /\ obj_score i = SV1 (f (genotype i)).
Proof.
  intros fuel cf a b k f s gd' cl s' V Fc Hk Li Nd Fa Me Is H. set (home := cf_input_population cf) in *.
  destruct (launched_run fuel cf (GenOrd a b k) Order (new_combi Movement) s gd' cl s' H) as (c & gd0 & s0 & j & c' & La & A).
  assert (Eh : genos s0 (members (population gd0)) = home).
  { destruct La as (p & s1 & p' & ft & cl' & m & ng & Sp & _ & Fi & _ & _ & _ & _ & ->). cbn [population new_gadata]. apply set_params_inv in Sp. destruct Sp as [_ ->].
    apply fill_ok in Fi. destruct Fi as (g & Pg & Q0). cbv zeta in Q0. cbn [input_population num_individ gspec_of prepare] in *. fold home in Q0. destruct Q0 as (Ep & _ & _ & K).
    inversion Pg; subst g. replace (Z.to_nat (cf_num_individ cf - Z.of_nat (length home))) with 0%nat in Ep by lia. rewrite Nat.add_0_r in Ep.
    assert (Em : members p' = seq (next s1) (length home)) by (rewrite Ep; reflexivity).
    assert (Nth : forall q, nth_error (genos s0 (members p')) q = nth_error home q).
    { intros q. unfold genos. rewrite nth_error_map. destruct (nth_error (members p') q) as [r|] eqn:Er.
      - destruct (K q r Er) as (geno & <- & _ & _ & _ & _ & _ & _ & G). cbn [option_map]. destruct (nth_error home q) as [x|] eqn:Ex; [cbn in G; congruence|].
        exfalso. apply nth_error_None in Ex. assert (q < length (members p'))%nat by (apply nth_error_Some; congruence). rewrite Em, seq_length in *. lia.
      - cbn. symmetry. apply nth_error_None. apply nth_error_None in Er. rewrite Em, seq_length in Er. exact Er. }
    revert Nth. generalize (genos s0 (members p')). generalize home. clear. intros home l. revert home. induction l as [|x l IH]; intros [|y h] N; auto; [specialize (N 0%nat); discriminate N|specialize (N 0%nat); discriminate N|].
    f_equal; [specialize (N 0%nat); inversion N; auto|]. apply IH. intros q. apply (N (S q)). }
  destruct (launched_trap fuel cf a b k f home s c gd0 s0 V Fc Hk La Li Nd Fa Eh Me Is j c' gd' s' A) as (calls & El & Fh & Each).
  exists calls. split; [exact El|]. split; [exact Fh|].
  assert (Ne : home <> []). { intros E. rewrite E in Li. cbn in Li. destruct V as ((V & _) & _). lia. }
  eapply (reports_home fuel cf a b k f home s gd' cl s' calls); eauto.
  destruct (C44_combinatory fuel cf a b k s gd' cl s' Fa H) as (calls' & El' & F'). assert (calls' = calls) by (apply (app_inv_tail (log s)); congruence). subst. exact F'.
Qed.

(** *** The initial tours a run may draw *)
Lemma generate_reaches : forall g rest, spec_usable g -> Forall (in_domain g) rest ->
  exists ds, forall t s, exists rs s', mrepeat (length rest) (geno <- get_generated_individ g ;; alloc (new_individ g geno)) (set_tape (papp ds t) s) = Ok rs s' /\
    Forall2 (fun x r => heap s' r = new_individ g x) rest rs.
Proof.
  intros g rest U F. induction F as [|x rest Dx F (ds & K)].
  - exists []. intros t s. eexists _, _. split; [reflexivity|constructor].
  - destruct (proj2 (generated_possible g U) x Dx) as (d1 & K1). exists (d1 ++ ds). intros t s.
    cbn [length mrepeat]. unfold bind. rewrite papp_app, K1. unfold alloc at 1.
    set (s1 := mkSt (upd (heap (set_tape (papp ds t) s)) (next (set_tape (papp ds t) s)) (new_individ g x)) (S (next (set_tape (papp ds t) s))) (tape (set_tape (papp ds t) s)) (ent (set_tape (papp ds t) s)) (rnd_seed (set_tape (papp ds t) s)) (prng (set_tape (papp ds t) s)) (log (set_tape (papp ds t) s))).
    destruct (K t s1) as (rs & s' & E & Fr). change (set_tape (papp ds t) s1) with s1 in E. unfold bind in E. rewrite E. eexists _, _. split; [reflexivity|]. constructor; auto.
    apply generate_loop_ok in E. destruct E as (_ & _ & (_ & _ & _ & _ & X) & _). rewrite X; [|unfold s1; cbn; lia]. unfold s1. cbn [heap]. apply upd_eq.
Qed.
Lemma inputs_alloc : forall a b k l s, exists rs s', mmap (fun x => geno <- lift (input_genotype (GenOrd a b k) x) ;; alloc (new_individ (GenOrd a b k) geno)) l s = Ok rs s' /\
  tape s' = tape s /\ ent s' = ent s /\ Forall2 (fun x r => heap s' r = new_individ (GenOrd a b k) x) l rs.
Proof.
  intros a b k l. set (F := fun x => geno <- lift (input_genotype (GenOrd a b k) x) ;; alloc (new_individ (GenOrd a b k) geno)). induction l as [|x l IH]; intros s; cbn [mmap].
  - eexists _, _. split; [reflexivity|]. auto.
  - set (s1 := mkSt (upd (heap s) (next s) (new_individ (GenOrd a b k) x)) (S (next s)) (tape s) (ent s) (rnd_seed s) (prng s) (log s)).
    assert (E0 : F x s = Ok (next s) s1) by reflexivity. unfold bind. rewrite E0. destruct (IH s1) as (rs & s' & E & T1 & T2 & Fr). rewrite E.
    eexists _, _. split; [reflexivity|]. split; [exact T1|]. split; [exact T2|]. constructor; auto.
    apply input_loop_ok in E. destruct E as (_ & _ & (_ & _ & _ & _ & X) & _). rewrite X; [|unfold s1; cbn; lia]. unfold s1. cbn [heap]. apply upd_eq.
Qed.
Lemma run_bind : forall {A B} (m : M A) (g : A -> M B) s a s', m s = Ok a s' -> bind m g s = g a s'.
Proof. intros A B m g s a s' H. unfold bind. rewrite H. reflexivity. Qed.
(** Any tours can be drawn. *)
Lemma fill_reaches : forall n a b k inp rest, 0 <= k <= Z.max 0 (b - a + 1) -> Z.of_nat (length inp + length rest) = n -> Forall (arrangement a b k) rest ->
  exists ds, forall t s, exists p' s', fill (mkPop [] false n (GenOrd a b k) inp) (set_tape (papp ds t) s) = Ok p' s' /\ genos s' (members p') = inp ++ rest.
Proof.
  intros n a b k inp rest Hk Hn Fa. destruct (generate_reaches (GenOrd a b k) rest Hk Fa) as (ds & K). exists ds. intros t s.
  destruct (inputs_alloc a b k inp (set_tape (papp ds t) s)) as (r1 & s1 & E1 & Et & _ & F1). destruct (K t s1) as (r2 & s2 & E2 & F2).
  assert (Es1 : set_tape (papp ds t) s1 = s1) by (cbn in Et; rewrite <- Et; apply set_tape_same). rewrite Es1 in E2.
  assert (X : extends s1 s2 /\ (forall r, In r r1 -> (r < next s1)%nat)).
  { pose proof E2 as E2'. apply generate_loop_ok in E2'. destruct E2' as (_ & _ & X & _). split; auto. apply input_loop_ok in E1. destruct E1 as (-> & N & _ & _). intros r Hr. apply in_seq in Hr. lia. }
  destruct X as [(_ & _ & _ & _ & X) Lr].
  unfold fill. cbn [gspec_of]. rewrite (run_bind _ _ _ _ _ (eq_refl : lift (prepare (GenOrd a b k)) _ = Ok (GenOrd a b k) _)). cbn [input_population num_individ is_phenotype].
  rewrite (run_bind _ _ _ _ _ E1). replace (Z.to_nat (n - Z.of_nat (length inp))) with (length rest) by lia. rewrite (run_bind _ _ _ _ _ E2). cbv zeta.
  rewrite (run_bind _ _ _ _ _ (eq_refl : ret tt s2 = Ok tt s2)). unfold reset_idx_individ. unfold bind at 1.
  destruct (reset_idx_loop 0 (r1 ++ r2) s2) as [u s3|e|] eqn:E3.
  - eexists _, _. split; [reflexivity|]. cbn [members set_members]. apply reset_idx_ok in E3. destruct E3 as (_ & _ & _ & _ & _ & _ & Hh).
    assert (Eg : forall r, genotype (heap s3 r) = genotype (heap s2 r)) by (intros r; rewrite Hh; destruct (last_pos 0 (r1 ++ r2) r); reflexivity).
    unfold genos. rewrite (map_ext _ (fun r => genotype (heap s2 r))) by exact Eg. rewrite map_app. f_equal.
    + rewrite (map_ext_in _ (fun r => genotype (heap s1 r))) by (intros r Hr; rewrite X; auto). clear - F1. induction F1 as [|x r l rs E F IH]; auto. cbn. rewrite E, IH. reflexivity.
    + clear - F2. induction F2 as [|x r l rs E F IH]; auto. cbn. rewrite E, IH. reflexivity.
  - exfalso. eapply reset_idx_safe; eauto.
  - exfalso. eapply fl_reset; eauto.
Qed.

(** *** No convergence *)
Definition with_generations (N : Z) (cf : config) : config :=
  mkCfg N (cf_num_individ cf) (cf_objective cf) (cf_obj_value cf) (cf_input_data cf) (cf_penalty cf) (cf_conditions cf) (cf_children_percent cf) (cf_early_stop cf)
    (cf_input_population cf) (cf_tournament_size cf) (cf_mutation_lvl cf) (cf_transfer cf) (cf_is_print cf).
(** The run reports a value at least as good as [z]. *)
Definition reports_as_good {A} (t : obj_target) (z : Q) (o : outcome (gadata * A)) : bool :=
  match o with Ok (gd, _) _ => match best_solution gd with BSingle i _ => match obj_score i with SV1 x => as_good t z x | _ => false end | _ => false end | _ => false end.

Fixpoint tours_eqb (l1 l2 : list (list gv)) : bool :=
  match l1, l2 with [], [] => true | x :: l1, y :: l2 => gvs_eqb x y && tours_eqb l1 l2 | _, _ => false end.
Lemma tours_eqb_refl : forall a b k l, Forall (arrangement a b k) l -> tours_eqb l l = true.
Proof.
  intros a b k l F. induction F as [|x l Hx F IH]; auto. cbn [tours_eqb]. rewrite IH, andb_true_r. destruct Hx as (zs & -> & _). clear. induction zs as [|z zs IH]; auto.
  cbn [map gvs_eqb]. rewrite IH, andb_true_r. apply (gv_eqb_refl Qorder), qgene_ok.
Qed.
Lemma tours_eqb_eq : forall a b k l l', Forall (arrangement a b k) l -> Forall (arrangement a b k) l' -> tours_eqb l l' = true -> l = l'.
Proof.
  intros a b k l l' F. revert l'. induction F as [|x l Hx F IH]; intros [|y l'] F' E; auto; try discriminate E. inversion F' as [|? ? Hy F'']; subst. cbn [tours_eqb] in E. apply andb_true_iff in E. destruct E as [E1 E2].
  f_equal; auto. eapply tours_same; eauto.
Qed.
(** The first part of a run, and the event that it draws [home]. *)
Definition opening (cf : config) (g : gspec) : M pop := do_seed ;;; p <- lift (set_params (cf_num_individ cf) g (cf_input_population cf)) ;; fill p.
Definition draws_home (home : list (list gv)) (o : outcome pop) : bool := match o with Ok p s => tours_eqb (genos s (members p)) home | _ => false end.
Lemma tr_opening : forall cf g, treelike (opening cf g).
Proof. intros. unfold opening. apply tr_bind; [apply tr_do_seed|intros ?]. apply tr_bind; [apply tr_lift|intros ?]. apply tr_fill. Qed.
Lemma draws_unseeing : forall home, unseeing (fun o => indicator (draws_home home o)).
Proof. intros home. apply unseeing_indicator. intros t e o. destruct o; reflexivity. Qed.
Lemma tr_optimize : forall fuel cf g sel ck mk, treelike (ga_optimize fuel cf false g Hyperbola sel ck mk false).
Proof.
  intros. unfold ga_optimize. apply tr_bind; [apply tr_do_seed|intros ?]. do 4 (apply tr_bind; [apply tr_lift|intros ?]). apply tr_bind; [apply tr_fill|intros ?]. cbv zeta.
  apply tr_bind; [unfold run_loop; apply tr_bind; [apply tr_fitness_execute|]; intros; apply tr_bind; [apply tr_update|]; intros; apply tr_ga_loop|intros [c gd]].
  apply tr_bind; [|intros; apply tr_ret]. destruct (cf_is_print cf); [|apply tr_ret]. unfold print_best_solution. cbn [snd]. destruct (best_solution gd) as [|i0 k0|l0 [k0|]]; try apply tr_raise; try apply tr_ret.
  apply tr_miter. intros x. destruct (phenotype x); [apply tr_ret|apply tr_raise].
Qed.
(** Any initial tours have a probability above 0. *)
Lemma home_positive : forall cf a b k rest s, 0 <= k <= Z.max 0 (b - a + 1) -> Z.of_nat (length (cf_input_population cf ++ rest)) = cf_num_individ cf ->
  Forall (arrangement a b k) (cf_input_population cf ++ rest) -> rnd_seed s = None ->
  exists p0, (0 < p0)%Q /\ probability (opening cf (GenOrd a b k)) s (draws_home (cf_input_population cf ++ rest)) p0.
Proof.
  intros cf a b k rest s Hk Lh Fa Hs. set (home := cf_input_population cf ++ rest) in *.
  assert (Ar : Forall (arrangement a b k) rest) by (unfold home in Fa; apply Forall_app in Fa; apply Fa).
  destruct (tree_bound s (fun o => indicator (draws_home home o)) _ 1%Q (tr_opening cf (GenOrd a b k)) Hs) as (p0 & E & _); [intros; apply indicator_bounds|].
  exists p0. split; [|exact E].
  assert (Li : Z.of_nat (length (cf_input_population cf) + length rest) = cf_num_individ cf) by (rewrite <- Lh; unfold home; rewrite app_length; reflexivity).
  destruct (fill_reaches (cf_num_individ cf) a b k (cf_input_population cf) rest ltac:(lia) Li Ar) as (ds & K).
  apply (expects_positive s _ _ p0 (draws_unseeing home) (fun o => proj1 (indicator_bounds _)) E (fun _ => 0) (fun _ => papp ds (fun _ => 0))).
  unfold opening, bind, do_seed, lift. match goal with |- context [rnd_seed ?u] => change (rnd_seed u) with (rnd_seed s) end. rewrite Hs, set_params_fits by lia.
  match goal with |- context [fill ?p (set_ent ?x (set_tape ?y ?u))] => destruct (K (fun _ => 0) (set_ent x u)) as (p' & s' & Ef & Eg); change (set_ent x (set_tape y u)) with (set_tape (papp ds (fun _ => 0)) (set_ent x u)) end.
  rewrite Ef. cbn [draws_home]. rewrite Eg. fold home. rewrite (tours_eqb_refl a b k home Fa). reflexivity.
Qed.
Lemma home_drawn : forall cf a b k home s c gd0 s0, Forall (arrangement a b k) (cf_input_population cf) -> Forall (arrangement a b k) home ->
  launched cf (GenOrd a b k) Order (new_combi Movement) s c gd0 s0 -> draws_home home (opening cf (GenOrd a b k) s) = true -> genos s0 (members (population gd0)) = home.
Proof.
  intros cf a b k home s c gd0 s0 Ai Fa (p1 & s2 & p' & ft & cl' & m & ng & Sp & Ds & Fi & _ & _ & _ & _ & ->) Dh. cbn [population new_gadata].
  unfold opening in Dh. rewrite (run_bind _ _ _ _ _ Ds) in Dh. rewrite Sp in Dh. rewrite (run_bind _ _ _ _ _ (eq_refl : lift (inr p1) s2 = Ok p1 s2)), Fi in Dh. cbn [draws_home] in Dh.
  eapply tours_eqb_eq; [|exact Fa|exact Dh]. apply Forall_forall. intros x Hx. unfold genos in Hx. apply in_map_iff in Hx. destruct Hx as (r & <- & Hr).
  destruct (set_params_ok _ _ _ _ _ _ _ Sp Fi) as (Pg' & _). cbn [prepare] in Pg'. assert (Eg : gspec_of p' = GenOrd a b k) by congruence.
  assert (Pi : pop_in (new_gadata false 0 (0 : @num Qops)%Q None p') s0).
  { eapply fill_in; [reflexivity|exact Sp|exact Fi|]. rewrite Eg. intros x geno Ix E'. cbn in E'. inversion E'; subst. rewrite Forall_forall in Ai. exact (Ai _ Ix). }
  specialize (Pi r Hr). cbn [population new_gadata] in Pi. rewrite Eg in Pi. exact Pi.
Qed.
(** What never follows these tours has a probability of 1 - p0 at most. *)
Lemma bounded_away : forall cf a b k home s p0 (ev : outcome (gadata * option (list string)) -> bool) fuel N, rnd_seed s = None ->
  probability (opening cf (GenOrd a b k)) s (draws_home home) p0 -> (forall t e o, ev (with_source t e o) = ev o) ->
  (forall t e, ev (combinatory_ga fuel (with_generations N cf) a b k (set_source t e s)) = true -> draws_home home (opening cf (GenOrd a b k) (set_source t e s)) = false) ->
  exists p, probability (combinatory_ga fuel (with_generations N cf) a b k) s ev p /\ (p <= 1 - p0)%Q.
Proof.
  intros cf a b k home s p0 ev fuel N Hs E U K.
  destruct (tree_bound s (fun o => indicator (ev o)) _ 1%Q (tr_optimize fuel (with_generations N cf) (GenOrd a b k) (SelTournament (cf_tournament_size cf)) Order (new_combi Movement)) Hs) as (p & P & _); [intros; apply indicator_bounds|].
  exists p. split; [exact P|]. apply expects_complement in E.
  refine (expects_compare s _ _ _ _ (unseeing_indicator _ U) _ P _ _ E _); [intros t e o; rewrite (draws_unseeing home t e o); reflexivity|].
  intros t e. specialize (K t e). unfold combinatory_ga in K. cbn [with_generations cf_tournament_size] in K. destruct (ev (ga_optimize _ _ _ _ _ _ _ _ _ (set_source t e s))).
  - rewrite (K eq_refl). cbn [indicator]. lra.
  - pose proof (indicator_bounds (draws_home home (opening cf (GenOrd a b k) (set_source t e s)))). cbn [indicator] in *. lra.
Qed.

(** If the user's tours [inp] and some [rest] form an isolated population, [z] being better
    than all of it, then there is a p0 > 0 such that after any number of generations a run
    reports a value as good as that of [z] with probability 1 - p0 at most. *)
Theorem C84_no_convergence : forall cf a b k (f : list gv -> Q) rest z s, valid_common cf -> few_children cf -> 3 <= k <= b - a + 1 ->
  Z.of_nat (length (cf_input_population cf ++ rest)) = cf_num_individ cf -> NoDup (cf_input_population cf ++ rest) -> Forall (arrangement a b k) (cf_input_population cf ++ rest) ->
  measures cf f (arrangement a b k) -> isolated (cf_obj_value cf) f k (cf_input_population cf ++ rest) ->
  (forall h, In h (cf_input_population cf ++ rest) -> as_good (cf_obj_value cf) (f z) (f h) = false) -> rnd_seed s = None ->
  exists p0, (0 < p0)%Q /\ forall N fuel, exists p, probability (combinatory_ga fuel (with_generations N cf) a b k) s (reports_as_good (cf_obj_value cf) (f z)) p /\ (p <= 1 - p0)%Q.
Proof.
  intros cf a b k f rest z s V Fc Hk Lh Nd Fa Me Is Bz Hs. destruct (home_positive cf a b k rest s ltac:(lia) Lh Fa Hs) as (p0 & Pos & E). exists p0. split; [exact Pos|].
  set (home := cf_input_population cf ++ rest) in *.
  assert (Ai : Forall (arrangement a b k) (cf_input_population cf)) by (unfold home in Fa; apply Forall_app in Fa; apply Fa).
  intros N fuel. set (cfN := with_generations N cf). apply (bounded_away cf a b k home s p0 (reports_as_good (cf_obj_value cf) (f z)) fuel N Hs E).
  - intros t e o. destruct o as [[gd x] s1| |]; reflexivity.
  - intros t e Rg. fold cfN in Rg. set (s1 := set_source t e s) in *. destruct (draws_home home (opening cf (GenOrd a b k) s1)) eqn:Dh; auto. exfalso.
    destruct (combinatory_ga fuel cfN a b k s1) as [[gd' cl] s'| |] eqn:R; try discriminate Rg.
    destruct (launched_run fuel cfN (GenOrd a b k) Order (new_combi Movement) s1 gd' cl s' R) as (c & gd0 & s0 & j & c' & La & A).
    pose proof (home_drawn cfN a b k home s1 c gd0 s0 Ai Fa La Dh) as Eh.
    assert (VN : valid_common cfN) by exact V. assert (FN : few_children cfN) by exact Fc. assert (MN : measures cfN f (arrangement a b k)) by exact Me.
    destruct (launched_trap fuel cfN a b k f home s1 c gd0 s0 VN FN ltac:(lia) La Lh Nd Fa Eh MN Is j c' gd' s' A) as (calls & El & Fh & Each).
    assert (Ne : home <> []). { intros E0. rewrite E0 in Lh. cbn in Lh. destruct V as ((V & _) & _). lia. }
    destruct (C44_combinatory fuel cfN a b k s1 gd' cl s' Ai R) as (calls' & El' & F'). assert (calls' = calls) by (apply (app_inv_tail (log s1)); congruence). subst calls'.
    destruct (reports_home fuel cfN a b k f home s1 gd' cl s' calls VN ltac:(lia) Fa MN Is Ne R El Fh Each F') as (i & gen & Eb & Ih & Eo).
    cbn [reports_as_good] in Rg. rewrite Eb, Eo in Rg. rewrite (Bz _ Ih) in Rg. discriminate Rg.
Qed.

(** *** Elements that are not drawn *)
Lemma nodup_first : forall (l : list Z) n, NoDup l -> NoDup (firstn n l).
Proof.
  induction l as [|x l IH]; intros n H; destruct n; cbn; try constructor; inversion H; subst; auto.
  intros C. apply in_firstn_ in C. contradiction.
Qed.
Lemma F2_in_r_ : forall {A B} (P : A -> B -> Prop) l m y, Forall2 P l m -> In y m -> exists x, In x l /\ P x y.
Proof. intros A B P l m y F. induction F; intros Hy; [contradiction|]. destruct Hy as [->|Hy]; [eexists; split; [left; reflexivity|auto]|]. destruct (IHF Hy) as (x0 & ? & ?). exists x0. split; [right|]; auto. Qed.
(** The run returns and has called the objective on a tour satisfying [Y]. *)
Definition evaluates_some {A} (Y : list gv -> bool) (s : st) (o : outcome A) : bool :=
  match o with Ok _ s' => existsb (fun call => Y (fst call)) (new_calls s s') | _ => false end.
(** Tours of fewer elements than there are: with a probability of at least some p0 > 0,
    whatever the settings and the number of generations, the run never tries a tour with
    the element [e] (C63), unless the user has supplied one. *)
Theorem C84_missing_element : forall cf a b k e Y s, 0 <= k <= b - a -> a <= e <= b -> Z.of_nat (length (cf_input_population cf)) <= cf_num_individ cf ->
  Forall (arrangement a b k) (cf_input_population cf) -> Forall (fun x => ~ In (GInt e) x) (cf_input_population cf) ->
  (forall x, Y x = true -> In (GInt e) x) -> rnd_seed s = None ->
  exists p0, (0 < p0)%Q /\ forall N fuel, exists p, probability (combinatory_ga fuel (with_generations N cf) a b k) s (evaluates_some Y s) p /\ (p <= 1 - p0)%Q.
Proof.
  intros cf a b k e Y s Hk He Li Ai Ne HY Hs.
  set (tour := map (@GInt Qops) (firstn (Z.to_nat k) (filter (fun z => negb (z =? e)) (zrange a (b + 1))))).
  set (rest := repeat tour (Z.to_nat (cf_num_individ cf - Z.of_nat (length (cf_input_population cf))))).
  set (L := filter (fun z => negb (z =? e)) (zrange a (b + 1))) in *.
  assert (Nt : ~ In (GInt e) tour).
  { unfold tour. intros C. apply in_map_iff in C. destruct C as (z & Ez & Iz). inversion Ez; subst z. apply in_firstn_, filter_In in Iz. destruct Iz as [_ Iz]. rewrite Z.eqb_refl in Iz. discriminate Iz. }
  assert (At : arrangement a b k tour).
  { eexists. split; [reflexivity|]. assert (Nd : NoDup L) by (apply NoDup_filter, zrange_nodup).
    assert (Ll : (Z.to_nat k <= length L)%nat).
    { assert (I : incl (zrange a (b + 1)) (e :: L)).
      { intros z Hz. destruct (Z.eq_dec z e) as [->|Nz]; [left; auto|right]. apply filter_In. split; auto. apply negb_true_iff, Z.eqb_neq. exact Nz. }
      apply NoDup_incl_length in I; [|apply zrange_nodup]. rewrite zrange_length in I. cbn [length] in I. lia. }
    split; [rewrite firstn_length; lia|]. split.
    - apply nodup_first. exact Nd.
    - apply Forall_forall. intros z Hz. apply in_firstn_, filter_In in Hz. destruct Hz as [Hz _]. apply in_zrange in Hz. lia. }
  assert (Ar : Forall (arrangement a b k) rest) by (apply Forall_forall; intros x Hx; apply repeat_spec in Hx; subst; exact At).
  assert (Fa : Forall (arrangement a b k) (cf_input_population cf ++ rest)) by (apply Forall_app; auto).
  assert (Lh : Z.of_nat (length (cf_input_population cf ++ rest)) = cf_num_individ cf) by (rewrite app_length; unfold rest; rewrite repeat_length; lia).
  destruct (home_positive cf a b k rest s ltac:(lia) Lh Fa Hs) as (p0 & Pos & E). exists p0. split; [exact Pos|]. set (home := cf_input_population cf ++ rest) in *.
  assert (Nh : forall x, In x home -> ~ In (GInt e) x).
  { intros x Hx. unfold home in Hx. apply in_app_or in Hx. destruct Hx as [Hx|Hx]; [rewrite Forall_forall in Ne; auto|]. apply repeat_spec in Hx. subst. exact Nt. }
  intros N fuel. apply (bounded_away cf a b k home s p0 (evaluates_some Y s) fuel N Hs E).
  - intros t e' o. destruct o as [x s1| |]; reflexivity.
  - intros t e' Rg. set (s1 := set_source t e' s) in *. destruct (draws_home home (opening cf (GenOrd a b k) s1)) eqn:Dh; auto. exfalso.
    destruct (combinatory_ga fuel (with_generations N cf) a b k s1) as [[gd' cl] s'| |] eqn:R; try discriminate Rg.
    destruct (launched_run fuel (with_generations N cf) (GenOrd a b k) Order (new_combi Movement) s1 gd' cl s' R) as (c & gd0 & s0 & j & c' & La & A).
    pose proof (home_drawn (with_generations N cf) a b k home s1 c gd0 s0 Ai Fa La Dh) as Eh.
    destruct (launched_first _ _ _ _ _ _ _ _ La) as (_ & _ & St & _ & _ & _ & _ & _ & _ & El).
    destruct La as (p & s2 & p' & ft & cl' & m & ng & Sp & Ds & Fi & Nf & Nm & Nn & -> & ->).
    destruct (set_params_ok _ _ _ _ _ _ _ Sp Fi) as (Pg' & _ & _ & _). cbn [prepare] in Pg'. assert (Eg : gspec_of p' = GenOrd a b k) by congruence.
    assert (Em : exists x, m = MutCombi Movement x) by (unfold new_combi in Nm; destruct (cf_mutation_lvl _); repeat (destruct (String.eqb _ _) in Nm || destruct (out_of_01 _) in Nm); inversion Nm; eauto).
    destruct Em as (lv & ->). set (gd0 := new_gadata _ _ _ _ _) in *. set (c := mkComps _ _ _ _ _) in *.
    assert (Si : single c).
    { split; [|split]; [| |exact I].
      - cbn. unfold new_fitness in Nf. destruct (cf_penalty _); [inversion Nf; auto| |discriminate Nf]. destruct (_ <=? _); [inversion Nf; auto|]. cbn [is_multi_kind] in Nf. destruct (index_of _ _); inversion Nf; auto.
      - cbn. unfold new_newgen in Nn. destruct (String.eqb _ _); [inversion Nn; reflexivity|]. destruct (String.eqb _ _); inversion Nn; reflexivity. }
    destruct (closed_kept _ Qorder fuel c gd0 s0 Si (good_scores_any _ (proj1 Si)) St (fun geno => incl geno (concat home))) with (k := j) (c' := c') (gd' := gd') (s' := s')
      as (_ & _ & _ & _ & calls & cs & Ec & Fcs & Fp); auto.
    + apply genes_closed.
    + intros q Hq y Hy. apply in_concat. exists (genotype (heap s0 q)). split; auto. rewrite <- Eh. unfold genos. apply (in_map (fun r => genotype (heap s0 r))). exact Hq.
    + cbn [evaluates_some] in Rg. apply existsb_exists in Rg. destruct Rg as ([pt v] & Iv & Yv). cbn [fst] in Yv. apply HY in Yv.
      assert (Ic : In (pt, v) (calls ++ rev cs)).
      { unfold new_calls in Iv. change (log s) with (log s1) in Iv. rewrite <- El, Ec, app_assoc, app_length in Iv. replace (length (calls ++ rev cs) + length (log s0) - length (log s0))%nat with (length (calls ++ rev cs) + 0)%nat in Iv by lia.
        rewrite firstn_app_2 in Iv. cbn in Iv. rewrite app_nil_r in Iv. exact Iv. }
      assert (Bad : forall x, In x (concat home) -> x <> GInt e).
      { intros x Hx ->. apply in_concat in Hx. destruct Hx as (l & Hl & Hx). exact (Nh l Hl Hx). }
      apply in_app_or in Ic. destruct Ic as [Ic|Ic].
      * rewrite Forall_forall in Fp. destruct (Fp _ Ic) as (geno & Ig & Sg). cbn [gd0 population new_gadata] in Sg. rewrite Eg in Sg. cbn in Sg. subst geno. exact (Bad _ (Ig _ Yv) eq_refl).
      * apply in_rev in Ic. destruct (F2_in_r_ _ _ _ _ Fcs Ic) as (r & Hr & Sg). cbn [gd0 population new_gadata] in Sg. rewrite Eg in Sg. cbn in Sg. rewrite Sg in Yv.
        apply (Nh (genotype (heap s0 r))); auto. rewrite <- Eh. unfold genos. apply (in_map (fun r => genotype (heap s0 r))). exact Hr.
Qed.

(** *** A case *)
(** All offspring of two tours, listed. *)
Definition child_at (i j : nat) (p1 p2 : list gv) : list gv :=
  let seg := firstn (j - i) (skipn i p1) in
  let w := firstn (length p1 - (j - i)) (filter (fun x => negb (existsb (gv_eqb x) seg)) p2) in
  skipn (length p1 - j) w ++ seg ++ firstn (length p1 - j) w.
Definition moves (y : list gv) : list (list gv) :=
  flat_map (fun i => match nth_error y i with Some x => map (fun j => let rest := firstn i y ++ skipn (S i) y in firstn j rest ++ x :: skipn j rest) (seq 0 (length y)) | None => [] end) (seq 0 (length y)).
Definition all_offspring (k : Z) (p1 p2 : list gv) : list (list gv) :=
  let n := Z.to_nat k in
  flat_map (fun i => flat_map (fun j => let y := child_at i j p1 p2 in y :: moves y) (seq (S i) (n - 1 - i))) (seq 1 (n - 1)).
Lemma kept_filter : forall (P : gv -> Prop) (f : gv -> bool) l r, (forall x, P x <-> f x = true) -> Kept P l r -> r = filter f l.
Proof.
  intros P f l r E H. induction H as [|x l r Hx H IH|x l r Hx H IH]; auto; cbn [filter].
  - apply E in Hx. rewrite Hx. f_equal. exact IH.
  - destruct (f x) eqn:F; auto. exfalso. apply Hx, E, F.
Qed.
Lemma child_listed : forall i j p1 p2 c, (i <= j <= length p1)%nat -> order_child_at gv_eqb i j p1 p2 c -> c = child_at i j p1 p2.
Proof.
  intros i j p1 p2 c H (Lc & Es & r & Kr & Er). unfold child_at. set (seg := firstn (j - i) (skipn i p1)) in *.
  assert (Er2 : r = filter (fun x => negb (existsb (gv_eqb x) seg)) p2).
  { apply (kept_filter (fun x => ~ memE gv_eqb x seg)); [|exact Kr]. intros x. unfold memE. rewrite negb_true_iff, <- not_true_iff_false, existsb_exists, Exists_exists. tauto. }
  rewrite <- Er2, <- Er. assert (Lj : length (skipn j c) = (length p1 - j)%nat) by (rewrite skipn_length; lia). rewrite <- Lj, skipn_app, Nat.sub_diag, skipn_all, firstn_app, Nat.sub_diag, firstn_all. cbn [app skipn firstn]. rewrite app_nil_r, <- Es.
  assert (E2 : skipn j c = skipn (j - i) (skipn i c)) by (rewrite skipn_skipn; f_equal; lia). rewrite E2, firstn_skipn, firstn_skipn. reflexivity.
Qed.
Lemma offspring_listed : forall k p1 p2 x, Z.of_nat (length p1) = k -> offspring k p1 p2 x -> In x (all_offspring k p1 p2).
Proof.
  intros k p1 p2 x Lk (y & (i & j & Hi & Hj & Oc) & Hx). unfold all_offspring. cbv zeta. apply in_flat_map. exists i. split; [apply in_seq; lia|].
  apply in_flat_map. exists j. split; [apply in_seq; lia|]. rewrite <- (child_listed i j p1 p2 y) by (auto; lia).
  destruct Hx as [->|(p & q & g & Hp & Hq & _ & Eg & ->)]; [left; auto|right]. unfold moves. apply in_flat_map. exists p. split; [apply in_seq; lia|]. rewrite Eg.
  apply in_map_iff. exists q. split; auto. apply in_seq. lia.
Qed.

(** Three tours of six cities at value 1, one at value 0, all others at value 2. *)
Definition trap_home : list (list gv) := [ints [0; 3; 5; 4; 2; 1]; ints [0; 2; 5; 1; 3; 4]; ints [0; 5; 2; 1; 3; 4]].
Definition trap_best : list gv := ints [0; 1; 2; 3; 4; 5].
Definition trap_value (x : list gv) : Q := if gvs_eqb x trap_best then 0%Q else if existsb (gvs_eqb x) trap_home then 1%Q else 2%Q.
Definition trap_cf (inp : list (list gv)) (N : Z) : config :=
  mkCfg N 3 (Obj1 (fun _ x => inr (OScalar (trap_value x : @num Qops)))) TNone None PNone None (1#2 : @num Qops)%Q None inp 2 (LStr "strong") "best" false.
Lemma trap_isolated : isolated TNone trap_value 6 trap_home.
Proof.
  assert (C : forallb (fun p1 => forallb (fun p2 => forallb (fun x => forallb (fun h => negb (as_good TNone (trap_value h) (trap_value x))) trap_home) (all_offspring 6 p1 p2)) trap_home) trap_home = true) by (vm_compute; reflexivity).
  rewrite forallb_forall in C. intros p1 p2 x h H1 H2 Hh Of. assert (L : Z.of_nat (length p1) = 6) by (destruct H1 as [<-|[<-|[<-|[]]]]; reflexivity).
  specialize (C p1 H1). cbv beta in C. rewrite forallb_forall in C. specialize (C p2 H2). cbv beta in C. rewrite forallb_forall in C.
  specialize (C x (offspring_listed 6 p1 p2 x L Of)). cbv beta in C. rewrite forallb_forall in C. specialize (C h Hh). apply negb_true_iff in C. exact C.
Qed.
Lemma trap_tours : Forall (arrangement 0 5 6) trap_home /\ NoDup trap_home /\ arrangement 0 5 6 trap_best.
Proof.
  assert (A : forall zs, Z.of_nat (length zs) = 6 -> NoDup zs -> Forall (fun z => 0 <= z <= 5) zs -> arrangement 0 5 6 (ints zs)) by (intros zs L N F; exists zs; auto).
  split; [|split].
  - repeat constructor; apply A; try reflexivity; try (repeat constructor; cbn; intuition lia).
  - repeat constructor; cbn; intuition discriminate.
  - apply A; [reflexivity| |]; repeat constructor; cbn; intuition lia.
Qed.
Lemma trap_conditions : forall inp N, (length inp <= 3)%nat -> valid_common (trap_cf inp N) /\ few_children (trap_cf inp N) /\ measures (trap_cf inp N) trap_value (arrangement 0 5 6).
Proof.
  intros inp N L. split; [|split].
  - split; [|split; [reflexivity|exact I]]. split; [cbn; lia|]. split; [vm_compute; discriminate|]. split; [left; reflexivity|]. cbn. lia.
  - split; [reflexivity|vm_compute; reflexivity].
  - intros k pt _. cbn [cf_objective cf_input_data trap_cf given]. exact (answer_1 (fun _ x => inr (OScalar (trap_value x : @num Qops))) k pt).
Qed.
(** From these tours no run ever evaluates the best one. *)
Example C84_combinatory_case : forall fuel N s gd' cl s', combinatory_ga fuel (trap_cf trap_home N) 0 5 6 s = Ok (gd', cl) s' ->
  exists i gen, best_solution gd' = BSingle i gen /\ In (genotype i) trap_home /\ obj_score i = SV1 1%Q.
Proof.
  intros fuel N s gd' cl s' H. destruct (trap_conditions trap_home N ltac:(cbn; lia)) as (V & F & Me). destruct trap_tours as (A & D & _).
  destruct (C84_combinatory fuel (trap_cf trap_home N) 0 5 6 trap_value s gd' cl s' V F ltac:(lia) eq_refl D A Me trap_isolated H) as (_ & _ & _ & i & gen & Eb & Ih & Eo).
  exists i, gen. split; auto. split; auto. rewrite Eo. f_equal. cbn [trap_cf cf_input_population] in Ih. destruct Ih as [<-|[<-|[<-|[]]]]; reflexivity.
Qed.
(** CombinatoryGA, started with random tours and run without early stop, does not find the
    optimum with a probability that tends to 1; compare C82. *)
Theorem C84_convergence_refuted : exists cf a b k f z s, (forall N, valid_common (with_generations N cf)) /\ (forall N, 1 <= N -> full_length (with_generations N cf)) /\ 3 <= k <= b - a + 1 /\
  cf_input_population cf = [] /\ level_named (cf_mutation_lvl cf) /\ measures cf f (arrangement a b k) /\ arrangement a b k z /\
  (forall y, arrangement a b k y -> as_good (cf_obj_value cf) (f y) (f z) = true) /\ rnd_seed s = None /\
  exists p0, (0 < p0)%Q /\ forall N fuel, exists p, probability (combinatory_ga fuel (with_generations N cf) a b k) s (reports_as_good (cf_obj_value cf) (f z)) p /\ (p <= 1 - p0)%Q.
Proof.
  exists (trap_cf [] 4), 0, 5, 6, trap_value, trap_best, fresh_world. destruct trap_tours as (A & D & B). destruct (trap_conditions [] 4 ltac:(cbn; lia)) as (V & F & Me).
  split; [intros N; apply (trap_conditions [] N); cbn; lia|]. split; [intros N HN; split; [exact HN|intros e E; discriminate E]|]. split; [lia|]. split; [reflexivity|]. split; [right; right; reflexivity|].
  split; [exact Me|]. split; [exact B|]. split.
  - intros y _. cbn [cf_obj_value trap_cf as_good]. apply Qle_bool_iff. change (trap_value trap_best) with 0%Q. unfold trap_value. destruct (gvs_eqb y trap_best); [apply Qle_refl|]. destruct (existsb _ _); discriminate.
  - split; [reflexivity|]. apply (C84_no_convergence (trap_cf [] 4) 0 5 6 trap_value trap_home trap_best fresh_world V F ltac:(lia) eq_refl D A Me trap_isolated); [|reflexivity].
    intros h Hh. cbn [trap_cf cf_input_population app] in Hh. destruct Hh as [<-|[<-|[<-|[]]]]; reflexivity.
Qed.
(** A run of 30 generations from these tours: 32 calls, and the reported value is 1. *)
Example C84_run : observe (fun r s => (length (log s), match best_solution (fst r) with BSingle i _ => obj_score i | _ => SVNone end)) (combinatory_ga 50 (trap_cf trap_home 30) 0 5 6 fresh_world) = Some (32%nat, SV1 1%Q).
Proof. run. Qed.

(** Tours of three of the elements 0 to 5, with the constructor's values for the shares: tours
    with 5 may never be tried. *)
Definition pick_cf : config :=
  mkCfg 20 10 (Obj1 (fun _ x => inr (OScalar (trap_value x : @num Qops)))) TNone None PNone None (19#20 : @num Qops)%Q (Some 10) [] 3 (LStr "normal") "best" false.
Definition visits_5 (x : list gv) : bool := existsb (fun g => match g with GInt z => z =? 5 | _ => false end) x.
Example C84_missing_element_case : exists p0, (0 < p0)%Q /\ forall N fuel, exists p,
  probability (combinatory_ga fuel (with_generations N pick_cf) 0 5 3) fresh_world (evaluates_some visits_5 fresh_world) p /\ (p <= 1 - p0)%Q.
Proof.
  apply (C84_missing_element pick_cf 0 5 3 5); [lia|lia|cbn; lia|constructor|constructor| |reflexivity].
  intros x H. apply existsb_exists in H. destruct H as (g & Ig & Eg). destruct g as [ | |z| ]; try discriminate Eg. apply Z.eqb_eq in Eg. subst. exact Ig.
Qed.

Print Assumptions C84_combinatory.
Print Assumptions C84_no_convergence.
Print Assumptions C84_missing_element.
Print Assumptions C84_convergence_refuted.
