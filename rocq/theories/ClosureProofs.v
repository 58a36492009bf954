(** Any set of genotypes that the crossover and the mutation do not leave is kept along
    a run. *)
From Coq Require Import ZArith List Bool Lia Permutation.
From Verif Require Import Spec Num State Binary Population GaData Crossover Mutation Selection Penalty Fitness NewGeneration Driver
  ListLemmas Rnd Exec Laws PopulationProofs CrossoverProofs MutationProofs SelectionProofs VegaProofs
  NewGenProofs UpdateProofs FitnessProofs StepProofs RunProofs Runs PropCrossover PropRun DomainProofs.
Import ListNotations.
Open Scope list_scope.
Open Scope Z_scope.

Lemma F2_in_l : forall {A B} (P : A -> B -> Prop) l m x, Forall2 P l m -> In x l -> exists y, In y m /\ P x y.
Proof. intros A B P l m x F. induction F as [|a b l m H F IH]; intros []; [subst; exists b; split; auto; left; auto|]. destruct IH as (y & ? & ?); auto. exists y. split; auto. right; auto. Qed.

Section ClosureProofs.
  Context {NO : NumOps}.

  Section Closed.
    Context (D : list gv -> Prop) (ck : crossover_kind) (m : mutation) (g : gspec).
    Definition closed : Prop :=
      (forall n p1 p2 c, D p1 -> D p2 -> made ck n p1 p2 c -> D c) /\
      (forall m' x c, same_sort m m' -> D x -> mutated m' g x c -> D c).
  End Closed.
  Definition all_in (D : list gv -> Prop) (gd : gadata) (s : st) : Prop :=
    forall r, In r (members (population gd)) -> D (genotype (heap s r)).
  Definition point_in (D : list gv -> Prop) (g : gspec) (pt : list gv) : Prop := exists geno, D geno /\ spec_point g geno pt.

  Lemma step_closed : forall D c gd s c' gd' s' kids els h cs l0 bst md w, Step c gd s c' gd' s' kids els h cs l0 bst md w ->
    (forall r, In r (members (population gd)) -> (r < next s)%nat) ->
    closed D (c_crossover c) (c_mutation c) (gspec_of (population gd)) -> all_in D gd s ->
    all_in D gd' s' /\ Forall (fun x => point_in D (gspec_of (population gd)) (fst x)) cs.
  Proof.
    intros D c gd s c' gd' s' kids els h cs l0 bst md w St Lt [Cc Cm] P.
    assert (K : forall r, In r kids -> D (genotype (h r))).
    { intros r Hr. destruct (st_made _ _ _ _ _ _ _ _ _ _ _ _ _ _ St r Hr) as (first & rest & m1 & m2 & x & Em & I1 & I2 & Ma & Mu).
      apply (Cm (c_mutation c) x); auto; [destruct (c_mutation c); cbn; auto|]. eapply (Cc _ _ _ _ (P _ I1) (P _ I2)). exact Ma. }
    split.
    - intros r Hr. destruct (st_members _ _ _ _ _ _ _ _ _ _ _ _ _ _ St) as [_ Pm]. apply (Permutation_in _ Pm), in_app_or in Hr. destruct Hr as [Hr|Hr].
      + destruct (assessed_in _ _ _ _ _ _ _ _ _ _ (st_eval _ _ _ _ _ _ _ _ _ _ _ _ _ _ St) Hr) as (v & k & _ & _ & A).
        apply assess_keeps in A. destruct A as (-> & _). auto.
      + destruct (st_els _ _ _ _ _ _ _ _ _ _ _ _ _ _ St) as (e & b & l1 & -> & Em & Ie).
        assert (Im : In r (members (population gd))).
        { apply in_app_or in Hr. destruct Hr as [Hr|[<-|[]]]; auto. rewrite Em. apply in_or_app; right; left; auto. }
        destruct (st_core _ _ _ _ _ _ _ _ _ _ _ _ _ _ St r (Lt r Im)) as (E & _). rewrite <- E. auto.
    - apply Forall_forall. intros x Hx. destruct (assessed_call _ _ _ _ _ _ _ _ _ _ (st_eval _ _ _ _ _ _ _ _ _ _ _ _ _ _ St) Hx) as (r & Hr & E & _).
      exists (genotype (h r)). split; auto. rewrite E. apply decoded_point. apply (st_fresh _ _ _ _ _ _ _ _ _ _ _ _ _ _ St r Hr).
  Qed.

  Section Run.
    Context (ok : num -> Prop) (NL : NumOrder NO ok) (fuel : nat) (c : comps) (gd0 : gadata) (s0 : st).
    Context (Single : single c) (Good : good_scores ok (c_fitness c)) (Start : started gd0 s0).
    Context (D : list gv -> Prop) (Cl : closed D (c_crossover c) (c_mutation c) (gspec_of (population gd0))) (In0 : all_in D gd0 s0).
    (** The calls for the initial population. *)
    Definition first_calls (cs : list (list gv * oval)) : Prop :=
      Forall2 (fun r x => spec_point (gspec_of (population gd0)) (genotype (heap s0 r)) (fst x)) (members (population gd0)) cs.
    Definition closed_inv (c' : comps) (gd : gadata) (s : st) : Prop :=
      gspec_of (population gd) = gspec_of (population gd0) /\ same_sort (c_mutation c) (c_mutation c') /\
      c_crossover c' = c_crossover c /\ all_in D gd s /\
      exists calls cs, log s = calls ++ rev cs ++ log s0 /\ first_calls cs /\
        Forall (fun x => point_in D (gspec_of (population gd0)) (fst x)) calls.
    Lemma sort_trans : forall m1 m2 m3, same_sort m1 m2 -> same_sort m2 m3 -> same_sort m1 m3.
    Proof. intros [] [] []; cbn; try congruence; auto. Qed.
    Lemma closed_sort : forall ck m m' g, same_sort m m' -> closed D ck m g -> closed D ck m' g.
    Proof. intros ck m m' g S [C1 C2]. split; auto. intros m2 x y S2. apply C2. eapply sort_trans; eauto. Qed.
    Lemma assessed_firsts : forall f gen best h' k us cs, (forall r, In r us -> In r (members (population gd0))) ->
      assessed f (gspec_of (population gd0)) gen best (heap s0) h' k us cs ->
      Forall2 (fun r x => spec_point (gspec_of (population gd0)) (genotype (heap s0 r)) (fst x)) us cs.
    Proof.
      intros f gen best h' k us cs Hin A. revert Hin. induction A; intros Hin; constructor.
      - cbn [fst]. apply decoded_point. apply (in_fresh _ _ (started_init _ _ Start)). apply Hin. left; auto.
      - apply IHA. intros; apply Hin; right; auto.
    Qed.
    Lemma closed_kept : forall k c' gd' s', at_generation fuel c gd0 s0 k c' gd' s' -> closed_inv c' gd' s'.
    Proof.
      intros k c' gd' s' A. refine (proj2 (proj2 (gen_inv ok NL fuel c gd0 s0 Single Good Start closed_inv _ _ k c' gd' s' A))).
      - intros gd s cs l0 bst md w F G. split; [rewrite (fi_pop _ _ _ _ _ _ _ _ _ _ F); auto|]. split; [destruct (c_mutation c); cbn; auto|]. split; auto. split.
        + intros r Hr. destruct (fi_members _ _ _ _ _ _ _ _ _ _ F) as [_ Pm]. apply (Permutation_in _ Pm) in Hr.
          destruct (assessed_in _ _ _ _ _ _ _ _ _ _ (fi_eval _ _ _ _ _ _ _ _ _ _ F) Hr) as (v & k' & _ & _ & Av).
          apply assess_keeps in Av. destruct Av as (-> & _). apply In0; auto.
        + exists [], cs. split; [apply (fi_log _ _ _ _ _ _ _ _ _ _ F)|]. split; auto.
          eapply assessed_firsts; [|exact (fi_eval _ _ _ _ _ _ _ _ _ _ F)]. auto.
      - intros c1 gd1 s1 c2 gd2 s2 kids els h cs l0 bst md w Sc G1 (E1 & E2 & E3 & E4 & calls & cs0 & E5 & E6 & E7) St G2.
        destruct (step_closed D _ _ _ _ _ _ _ _ _ _ _ _ _ _ St) as (P2 & Fc); auto.
        { apply (gi_alloc _ _ _ G1). }
        { rewrite E1, E3. eapply closed_sort; eauto. }
        split; [rewrite (st_pop _ _ _ _ _ _ _ _ _ _ _ _ _ _ St); auto|]. destruct (st_comps _ _ _ _ _ _ _ _ _ _ _ _ _ _ St) as (m' & Ec & Em).
        split; [|split; [|split]].
        + rewrite Ec. cbn [c_mutation set_mutation]. destruct (c_mutation c), (c_mutation c1); cbn in E2 |- *; try congruence.
          * destruct Em as (x & ->). exact I.
        + rewrite Ec. exact E3.
        + exact P2.
        + exists (rev cs ++ calls), cs0. rewrite (st_log _ _ _ _ _ _ _ _ _ _ _ _ _ _ St), E5, <- app_assoc. split; auto. split; auto. apply Forall_app. split; auto.
          apply Forall_rev. rewrite E1 in Fc. auto.
    Qed.
  End Run.

  (** *** Which genes a crossover or a combinatorial mutation can produce *)
  Lemma slice_incl : forall (l : list gv) a b, incl (slice l a b) l.
  Proof. intros l a b x Hx. unfold slice in Hx. apply in_firstn_ in Hx. apply in_skipn_ in Hx. auto. Qed.
  Lemma slice_to_incl : forall (l : list gv) b, incl (slice_to l b) l.
  Proof. intros l b x Hx. unfold slice_to in Hx. apply in_firstn_ in Hx. auto. Qed.
  Lemma slice_from_incl : forall (l : list gv) a, incl (slice_from l a) l.
  Proof. intros l a x Hx. unfold slice_from in Hx. apply in_skipn_ in Hx. auto. Qed.
  Lemma order_child_incl : forall n a b p1 p2, incl (order_child n a b p1 p2) (p1 ++ p2).
  Proof.
    intros n a b p1 p2 x Hx. unfold order_child in Hx. apply in_or_app. apply in_app_or in Hx. destruct Hx as [Hx|Hx].
    - right. apply slice_incl, filter_In in Hx. tauto.
    - apply in_app_or in Hx. destruct Hx as [Hx|Hx]; [left; apply slice_incl in Hx; auto|]. right. apply slice_to_incl, filter_In in Hx. tauto.
  Qed.
  Lemma uniform_incl : forall p1 p2 l s c s', mmap (uniform_gene p1 p2) l s = Ok c s' -> incl c (p1 ++ p2).
  Proof.
    intros p1 p2 l. induction l as [|i l IH]; intros s c s' H; cbn [mmap] in H.
    - apply ret_ok in H. destruct H as [-> _]. intros x [].
    - bd H y s1 R1. bd H c1 s2 R2. apply ret_ok in H. destruct H as [-> _]. apply IH in R2. intros x [<-|Hx]; auto. clear IH R2.
      unfold uniform_gene in R1. bd R1 coin s3 R3. unfold lift_opt in R1. destruct (py_nth (if coin =? 1 then p1 else p2) i) as [z|] eqn:E; [|discriminate].
      apply ret_ok in R1. destruct R1 as [-> _]. apply in_or_app. unfold py_nth in E. match type of E with (if ?b then _ else _) = _ => destruct b end; [discriminate|]. apply nth_error_In in E. destruct (coin =? 1); auto.
  Qed.
  Lemma made_incl : forall ck n p1 p2 c, made ck n p1 p2 c -> incl c (p1 ++ p2).
  Proof.
    intros ck n p1 p2 c (s & gs & s' & H & Hc).
    assert (K : incl (fst gs) (p1 ++ p2) /\ incl (snd gs) (p1 ++ p2)).
    { destruct ck; cbn [crossover] in H.
      - unfold one_point in H. bd H i s1 R. apply ret_ok in H. destruct H as [-> _]. cbn [fst snd].
        split; intros x Hx; apply in_or_app; apply in_app_or in Hx; destruct Hx as [Hx|Hx]; apply slice_to_incl in Hx || apply slice_from_incl in Hx; auto.
      - unfold two_point in H. bd H ab s1 R. destruct ab as [a b]. apply ret_ok in H. destruct H as [-> _]. cbn [fst snd].
        split; intros x Hx; apply in_or_app; repeat (apply in_app_or in Hx; destruct Hx as [Hx|Hx]);
          apply slice_to_incl in Hx || apply slice_from_incl in Hx || apply slice_incl in Hx; auto.
      - unfold uniform in H. bd H l s1 R. apply ret_ok in H. destruct H as [-> _]. apply uniform_incl in R. auto.
      - unfold order in H. bd H ab s1 R. destruct ab as [a b]. apply ret_ok in H. destruct H as [-> _]. cbn [fst snd].
        split; [apply order_child_incl|]. intros x Hx. apply order_child_incl in Hx. apply in_or_app. apply in_app_or in Hx. tauto. }
    destruct Hc as [->| ->]; tauto.
  Qed.
  Lemma genes_closed : forall pool ck k l g, closed (fun geno => incl geno pool) ck (MutCombi k l) g.
  Proof.
    intros pool ck k l g. split.
    - intros n p1 p2 c I1 I2 Ma x Hx. apply (made_incl _ _ _ _ _ Ma), in_app_or in Hx. destruct Hx; auto.
    - intros m' x c S Ix Mu. cbn in S. rewrite S in Mu. cbn [mutated] in Mu. destruct Mu as [->|Mu]; auto. apply combi_perm in Mu.
      intros y Hy. apply Ix. eapply Permutation_in; [symmetry; exact Mu|auto].
  Qed.
End ClosureProofs.
