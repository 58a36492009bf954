(** The search space is closed under the crossovers and mutations that belong to it,
    so every individual of a run, and every point the objective sees, stays in it. *)
From Coq Require Import ZArith List Bool Lia Permutation.
From Verif Require Import Spec Num State Binary Population GaData Crossover Mutation Selection Penalty Fitness NewGeneration Driver
  ListLemmas Rnd Exec Laws PopulationProofs CrossoverProofs MutationProofs SelectionProofs VegaProofs
  NewGenProofs UpdateProofs FitnessProofs StepProofs RunProofs Runs PropCrossover PropRun.
Import ListNotations.
Open Scope list_scope.
Open Scope Z_scope.

Section DomainProofs.
  Context {NO : NumOps}.

  (** Position-wise inheritance. *)
  Definition mixes (n : nat) (p1 p2 c : list gv) : Prop := uniform_child n p1 p2 c.
  Lemma splice : forall {A} k (p q : list A) i, (k <= length p)%nat ->
    nth_error (firstn k p ++ skipn k q) i = if (i <? k)%nat then nth_error p i else nth_error q i.
  Proof.
    intros A k p q i Hk. destruct (Nat.ltb_spec i k).
    - rewrite nth_error_app1 by (rewrite firstn_length; lia).
      clear Hk. revert k H p. induction i; intros [|k] H [|x p]; cbn; try lia; auto. apply IHi; lia.
    - rewrite nth_error_app2 by (rewrite firstn_length; lia). rewrite firstn_length, Nat.min_l by lia.
      clear Hk. revert i H q. induction k; intros i H q; cbn; [rewrite Nat.sub_0_r; auto|]. destruct i; [lia|]. destruct q; cbn; [destruct (i - k)%nat; auto|]. apply IHk. lia.
  Qed.
  Lemma one_point_mixes : forall n p1 p2 c, length p1 = n -> length p2 = n -> one_point_child n p1 p2 c -> mixes n p1 p2 c.
  Proof.
    intros n p1 p2 c L1 L2 (k & Hk & ->). split; [rewrite app_length, firstn_length, skipn_length; lia|].
    intros i Hi. rewrite splice by lia. destruct (i <? k)%nat; auto.
  Qed.
  Lemma two_point_mixes : forall n p1 p2 c, length p1 = n -> length p2 = n -> two_point_child n p1 p2 c -> mixes n p1 p2 c.
  Proof.
    intros n p1 p2 c L1 L2 (i & j & Hi & Hj & ->).
    assert (E : firstn i p1 ++ firstn (j - i) (skipn i p2) ++ skipn j p1 = firstn j (firstn i p1 ++ skipn i p2) ++ skipn j p1).
    { rewrite firstn_app, firstn_firstn, firstn_length. rewrite Nat.min_r by lia. rewrite Nat.min_l by lia. rewrite <- app_assoc. auto. }
    rewrite E. assert (Lx : length (firstn i p1 ++ skipn i p2) = n) by (rewrite app_length, firstn_length, skipn_length; lia).
    split; [rewrite app_length, firstn_length, Lx, skipn_length; lia|].
    intros k Hk. rewrite splice by lia. destruct (k <? j)%nat; auto. rewrite splice by lia. destruct (k <? i)%nat; auto.
  Qed.
  Lemma mixes_sym : forall n p1 p2 c, mixes n p1 p2 c -> mixes n p2 p1 c.
  Proof. intros n p1 p2 c [L K]. split; auto. intros i Hi. destruct (K i Hi); auto. Qed.
  Lemma mixes_Forall2 : forall {A} (R : A -> gv -> Prop) ps n p1 p2 c, Forall2 R ps p1 -> Forall2 R ps p2 -> length ps = n -> mixes n p1 p2 c -> Forall2 R ps c.
  Proof.
    intros A R ps n p1 p2 c F1. revert n p2 c. induction F1 as [|a x ps p1 Hx F1 IH]; intros n p2 c F2 L [Lc K].
    - cbn in L. subst n. destruct c; [constructor|discriminate].
    - inversion F2 as [|? y ? p2' Hy F2']; subst. destruct c as [|z c]; [discriminate|]. cbn in Lc. constructor.
      + destruct (K 0%nat) as [E|E]; [cbn; lia| |]; cbn in E; inversion E; subst; auto.
      + apply (IH (length ps) p2' c); auto. split; [lia|]. intros i Hi. apply (K (S i)). cbn. lia.
  Qed.

  (** Crossovers and mutations that belong to a population class. *)
  Inductive belongs : crossover_kind -> mutation -> gspec -> Prop :=
  | belongs_bin : forall ck m gray gens bp, ck <> Order -> match m with MutCat _ => False | _ => True end ->
      belongs ck m (GenBinary gray gens bp)
  | belongs_cat : forall ck l gens, ck <> Order -> belongs ck (MutCat l) (GenCat gens)
  | belongs_ord : forall k l a b n, belongs Order (MutCombi k l) (GenOrd a b n).

  Lemma made_mixes : forall ck n p1 p2 c, ck <> Order -> length p1 = n -> length p2 = n -> made ck n p1 p2 c -> mixes n p1 p2 c.
  Proof.
    intros ck n p1 p2 c Hk L1 L2 (s & gs & s' & H & Hc).
    assert (NL : NumOrder NO (fun _ => False)) by (constructor; intros; contradiction).
    assert (P1 : parent_ok (ok := fun _ => False) ck n p1) by (split; auto; intros; contradiction).
    assert (P2 : parent_ok (ok := fun _ => False) ck n p2) by (split; auto; intros; contradiction).
    pose proof (crossover_sound NL ck n p1 p2 s gs s' P1 P2 H) as [O1 O2].
    assert (O : offspring ck n p1 p2 c) by (destruct Hc as [->| ->]; auto). clear - O Hk L1 L2.
    destruct ck; cbn in O; try congruence.
    - destruct O as [O|O]; [|apply mixes_sym]; apply one_point_mixes; auto.
    - destruct O as [O|O]; [|apply mixes_sym]; apply two_point_mixes; auto.
    - exact O.
  Qed.
  Lemma ints_dup_free : forall zs, dup_free (@gv_eqb NO) (map GInt zs) <-> NoDup zs.
  Proof.
    induction zs as [|z zs IH]; cbn; split; intros H; try constructor.
    - inversion H as [|? ? F D]; subst. intros C. rewrite Forall_forall in F. specialize (F (GInt z) (in_map _ _ _ C)). cbn in F. rewrite Z.eqb_refl in F. discriminate.
    - inversion H; subst. apply IH; auto.
    - inversion H; subst. apply Forall_forall. intros y Hy. apply in_map_iff in Hy. destruct Hy as (w & <- & Hw). cbn. apply Z.eqb_neq. congruence.
    - inversion H; subst. apply IH; auto.
  Qed.
  Lemma incl_ints : forall c zs, incl c (map (@GInt NO) zs) -> exists ws, c = map GInt ws /\ incl ws zs.
  Proof.
    induction c as [|x c IH]; intros zs H; [exists []; split; auto; intros y []|].
    destruct (IH zs) as (ws & -> & Iw); [intros y Hy; apply H; right; auto|].
    specialize (H x (or_introl eq_refl)). apply in_map_iff in H. destruct H as (w & <- & Hw). exists (w :: ws). split; auto.
    intros y [<-|Hy]; auto.
  Qed.
  Lemma domain_made : forall ck m g p1 p2 first c, belongs ck m g -> in_domain g p1 -> in_domain g p2 -> in_domain g first ->
    made ck (length first) p1 p2 c -> in_domain g c.
  Proof.
    intros ck m g p1 p2 first c B. destruct B as [ck m gray gens bp Hk Hm|ck l gens Hk|k l a b n]; cbn [in_domain].
    - intros (b1 & -> & L1) (b2 & -> & L2) (b3 & -> & L3) Ma. apply made_mixes in Ma; auto; try (rewrite !map_length; lia).
      assert (F : Forall2 (fun (_ : nat) x => exists b, x = GBit b) (seq 0 (length b3)) c).
      { apply (mixes_Forall2 _ _ _ (map GBit b1) (map GBit b2) c) with (4 := Ma); [| |rewrite seq_length, map_length; auto].
        - assert (E : length b3 = length b1) by lia. rewrite E. generalize 0%nat. clear. induction b1; intros k; cbn; constructor; eauto.
        - assert (E : length b3 = length b2) by lia. rewrite E. generalize 0%nat. clear. induction b2; intros k; cbn; constructor; eauto. }
      assert (X : exists bs, c = map GBit bs /\ length bs = length b3).
      { clear - F. rewrite <- (seq_length (length b3) 0). generalize dependent (seq 0 (length b3)). intros l F.
        induction F as [|k x l c (b & ->) F (bs & -> & L)]; [exists []; auto|]. exists (b :: bs). cbn. auto. }
      destruct X as (bs & -> & L). exists bs. split; auto. lia.
    - intros F1 F2 F3 Ma. pose proof F1 as W1. pose proof F2 as W2. pose proof F3 as W3. apply Forall2_length in W1, W2, W3.
      apply made_mixes in Ma; auto; try lia. eapply mixes_Forall2; [exact F1|exact F2| |exact Ma]. auto.
    - intros (z1 & -> & L1 & N1 & R1) (z2 & -> & L2 & N2 & R2) (z3 & -> & L3 & N3 & R3) (s & [c1 c2] & s' & H & Hc).
      assert (NL : NumOrder NO (fun _ => False)) by (constructor; intros; contradiction). cbn [crossover] in H.
      assert (Go : forall zs, Forall (gene_ok (ok := fun _ : num => False)) (map GInt zs)).
      { intros zs. apply Forall_forall. intros x Hx. apply in_map_iff in Hx. destruct Hx as (w & <- & _). exact I. }
      assert (Q1 : length (map (@GInt NO) z1) = length (map (@GInt NO) z3)) by (rewrite !map_length; lia).
      assert (Q2 : length (map (@GInt NO) z2) = length (map (@GInt NO) z3)) by (rewrite !map_length; lia).
      destruct (C14_tours _ NL (map GInt z1) (map GInt z2) (length (map GInt z3)) s c1 c2 s' Q1 Q2 (Go z1) (Go z2)
                  (proj2 (ints_dup_free z1) N1) (proj2 (ints_dup_free z2) N2) H c Hc) as (L & D & Ic & _).
      rewrite <- map_app in Ic. apply incl_ints in Ic. destruct Ic as (ws & -> & Iw). exists ws. rewrite !map_length in L. split; auto. split; [lia|].
      split; [apply ints_dup_free; auto|]. apply Forall_forall. intros w Hw. apply Iw, in_app_or in Hw. rewrite Forall_forall in R1, R2. destruct Hw; auto.
  Qed.
  Lemma pool_in : forall p x y, gene_in p x -> In y (pool_values p) -> gene_in p y.
  Proof.
    intros [a b stp|l|] x y Hx H; cbn in *; auto. apply in_map_iff in H. destruct H as (z & <- & Hz).
    assert (E0 : stp <> 0) by (destruct Hx as (? & ? & ? & ? & ? & ?); lia). clear Hx. unfold py_range in Hz. apply in_map_iff in Hz.
    destruct Hz as (i & <- & Hi). apply in_seq in Hi. exists (a + Z.of_nat i * stp), (Z.of_nat i). split; auto. split; [lia|]. split; auto.
    unfold range_len in Hi. destruct (0 <? stp) eqn:E1.
    - apply Z.ltb_lt in E1. destruct (a <? b + 1) eqn:E2; [|cbn in Hi; lia]. apply Z.ltb_lt in E2. left. split; auto.
      assert (Q : Z.of_nat i <= (b + 1 - a - 1) / stp) by lia. pose proof (Z.mul_div_le (b + 1 - a - 1) stp E1). nia.
    - apply Z.ltb_ge in E1. destruct (b + 1 <? a) eqn:E2; [|cbn in Hi; lia]. apply Z.ltb_lt in E2. right. split; [lia|].
      assert (Q : Z.of_nat i <= (a - (b + 1) - 1) / - stp) by lia. pose proof (Z.mul_div_le (a - (b + 1) - 1) (- stp)). nia.
  Qed.
  Lemma domain_mutated : forall ck m g x c, belongs ck m g -> in_domain g x -> mutated m g x c -> in_domain g c.
  Proof.
    intros ck m g x c B. destruct B as [ck m gray gens bp Hk Hm|ck l gens Hk|k l a b n]; cbn [in_domain].
    - intros (bs & -> & L) Mu. destruct m as [k l|l|l]; [| |contradiction]; cbn [mutated] in Mu.
      + destruct Mu as [->|Mu]; [exists bs; auto|]. apply combi_perm in Mu. symmetry in Mu. apply Permutation_map_inv in Mu.
        destruct Mu as (bs' & -> & P). exists bs'. split; auto. apply Permutation_length in P. lia.
      + assert (X : exists bs', c = map GBit bs' /\ length bs' = length bs).
        { clear - Mu. revert c Mu. induction bs as [|b bs IH]; intros c Mu; inversion Mu as [|? y ? c' Hy F]; subst; [exists []; auto|].
          destruct (IH _ F) as (bs' & -> & L). destruct Hy as [->| ->]; [exists (b :: bs')|exists (negb b :: bs')]; cbn; split; auto.
          destruct b; auto. }
        destruct X as (bs' & -> & L'). exists bs'. split; auto. lia.
    - intros F [L Mu]. clear - F L Mu. revert c L Mu. induction F as [|p x ps xs Hx F IH]; intros [|y c] L Mu; try discriminate; constructor.
      + destruct (Mu 0%nat p x y) as [->|[I _]]; auto. eapply pool_in; eauto.
      + apply IH; [cbn in L; lia|]. intros i p' x' y' Hp Hx' Hy'. apply (Mu (S i)); auto.
    - intros (zs & -> & L & N & R) Mu. cbn [mutated] in Mu. destruct Mu as [->|Mu]; [exists zs; auto|].
      apply combi_perm in Mu. symmetry in Mu. apply Permutation_map_inv in Mu. destruct Mu as (ws & -> & P). exists ws. split; auto.
      split; [apply Permutation_length in P; lia|]. split; [eapply Permutation_NoDup; eauto|].
      apply Forall_forall. intros w Hw. rewrite Forall_forall in R. apply R. eapply Permutation_in; [symmetry|]; eauto.
  Qed.

  (** *** Along a run *)
  Definition pop_in (gd : gadata) (s : st) : Prop :=
    forall r, In r (members (population gd)) -> in_domain (gspec_of (population gd)) (genotype (heap s r)).
  (** A point of the search space: what an element of the domain is for the objective. *)
  Definition domain_point (g : gspec) (pt : list gv) : Prop := exists geno, in_domain g geno /\ spec_point g geno pt.
  Definition same_sort (m m' : mutation) : Prop :=
    match m, m' with MutBin _, MutBin _ => True | _, _ => m' = m end.
  Lemma belongs_sort : forall ck m m' g, same_sort m m' -> belongs ck m g -> belongs ck m' g.
  Proof.
    intros ck m m' g S B. destruct m, m'; cbn in S; try congruence; try (rewrite S; exact B). inversion B; subst. constructor; auto.
  Qed.
  Lemma step_in : forall c gd s c' gd' s' kids els h cs l0 bst md w, Step c gd s c' gd' s' kids els h cs l0 bst md w ->
    (forall r, In r (members (population gd)) -> (r < next s)%nat) ->
    belongs (c_crossover c) (c_mutation c) (gspec_of (population gd)) -> pop_in gd s ->
    (forall r, In r kids -> in_domain (gspec_of (population gd)) (genotype (h r))) /\ pop_in gd' s' /\
    Forall (fun c => domain_point (gspec_of (population gd)) (fst c)) cs.
  Proof.
    intros c gd s c' gd' s' kids els h cs l0 bst md w St Lt B P.
    assert (K : forall r, In r kids -> in_domain (gspec_of (population gd)) (genotype (h r))).
    { intros r Hr. destruct (st_made _ _ _ _ _ _ _ _ _ _ _ _ _ _ St r Hr) as (first & rest & m1 & m2 & g & Em & I1 & I2 & Ma & Mu).
      eapply domain_mutated; [exact B| |exact Mu]. eapply domain_made; [exact B| | | |exact Ma]; apply P; auto. rewrite Em. left; auto. }
    split; auto. split.
    - intros r Hr. rewrite (st_pop _ _ _ _ _ _ _ _ _ _ _ _ _ _ St). cbn [gspec_of set_sorted set_members].
      destruct (st_members _ _ _ _ _ _ _ _ _ _ _ _ _ _ St) as [_ Pm]. apply (Permutation_in _ Pm), in_app_or in Hr. destruct Hr as [Hr|Hr].
      + destruct (assessed_in _ _ _ _ _ _ _ _ _ _ (st_eval _ _ _ _ _ _ _ _ _ _ _ _ _ _ St) Hr) as (v & k & _ & _ & A).
        apply assess_keeps in A. destruct A as (-> & _). auto.
      + destruct (st_els _ _ _ _ _ _ _ _ _ _ _ _ _ _ St) as (e & b & l1 & -> & Em & Ie).
        assert (Im : In r (members (population gd))).
        { apply in_app_or in Hr. destruct Hr as [Hr|[<-|[]]]; auto. rewrite Em. apply in_or_app; right; left; auto. }
        destruct (st_core _ _ _ _ _ _ _ _ _ _ _ _ _ _ St r (Lt r Im)) as (E & _). rewrite <- E. auto.
    - apply Forall_forall. intros x Hx. destruct (assessed_call _ _ _ _ _ _ _ _ _ _ (st_eval _ _ _ _ _ _ _ _ _ _ _ _ _ _ St) Hx) as (r & Hr & E & _).
      exists (genotype (h r)). split; auto. rewrite E. apply decoded_point. apply (st_fresh _ _ _ _ _ _ _ _ _ _ _ _ _ _ St r Hr).
  Qed.

  Section Run.
    Context (ok : num -> Prop) (NL : NumOrder NO ok) (fuel : nat) (c : comps) (gd0 : gadata) (s0 : st).
    Context (Single : single c) (Good : good_scores ok (c_fitness c)) (Start : started gd0 s0).
    Context (Bel : belongs (c_crossover c) (c_mutation c) (gspec_of (population gd0))) (In0 : pop_in gd0 s0).
    Definition domain_inv (c' : comps) (gd : gadata) (s : st) : Prop :=
      gspec_of (population gd) = gspec_of (population gd0) /\ same_sort (c_mutation c) (c_mutation c') /\
      c_crossover c' = c_crossover c /\ pop_in gd s /\
      exists calls, log s = calls ++ log s0 /\ Forall (fun x => domain_point (gspec_of (population gd0)) (fst x)) calls.
    Lemma domain_kept : forall k c' gd' s', at_generation fuel c gd0 s0 k c' gd' s' -> domain_inv c' gd' s'.
    Proof.
      intros k c' gd' s' A. refine (proj2 (proj2 (gen_inv ok NL fuel c gd0 s0 Single Good Start domain_inv _ _ k c' gd' s' A))).
      - intros gd s cs l0 bst md w F G. split; [rewrite (fi_pop _ _ _ _ _ _ _ _ _ _ F); auto|]. split; [destruct (c_mutation c); cbn; auto|]. split; auto. split.
        + intros r Hr. destruct (fi_members _ _ _ _ _ _ _ _ _ _ F) as [_ Pm]. apply (Permutation_in _ Pm) in Hr.
          destruct (assessed_in _ _ _ _ _ _ _ _ _ _ (fi_eval _ _ _ _ _ _ _ _ _ _ F) Hr) as (v & k' & _ & _ & Av).
          apply assess_keeps in Av. destruct Av as (-> & _). rewrite (fi_pop _ _ _ _ _ _ _ _ _ _ F). apply In0; auto.
        + exists (rev cs). split; [apply (fi_log _ _ _ _ _ _ _ _ _ _ F)|]. apply Forall_rev. apply Forall_forall. intros x Hx.
          destruct (assessed_call _ _ _ _ _ _ _ _ _ _ (fi_eval _ _ _ _ _ _ _ _ _ _ F) Hx) as (r & Hr & E & _).
          exists (genotype (heap s0 r)). split; [apply In0; auto|]. rewrite E. apply decoded_point.
          apply (in_fresh _ _ (started_init _ _ Start) r Hr).
      - intros c1 gd1 s1 c2 gd2 s2 kids els h cs l0 bst md w Sc G1 (E1 & E2 & E3 & E4 & calls & E5 & E6) St G2.
        destruct (step_in _ _ _ _ _ _ _ _ _ _ _ _ _ _ St) as (_ & P2 & Fc); auto.
        { apply (gi_alloc _ _ _ G1). }
        { rewrite E1, E3. eapply belongs_sort; eauto. }
        split; [rewrite (st_pop _ _ _ _ _ _ _ _ _ _ _ _ _ _ St); auto|]. destruct (st_comps _ _ _ _ _ _ _ _ _ _ _ _ _ _ St) as (m' & Ec & Em).
        split; [|split; [|split]].
        + rewrite Ec. cbn [c_mutation set_mutation]. destruct (c_mutation c), (c_mutation c1); cbn in E2 |- *; try congruence.
          * destruct Em as (x & ->). exact I.
        + rewrite Ec. exact E3.
        + exact P2.
        + exists (rev cs ++ calls). rewrite (st_log _ _ _ _ _ _ _ _ _ _ _ _ _ _ St), E5, app_assoc. split; auto. apply Forall_app. split; auto.
          apply Forall_rev. rewrite E1 in Fc. auto.
    Qed.
  End Run.

  (** The initial population lies in the domain as soon as the user's individuals do. *)
  Lemma fill_in : forall n g inp p s p' s' ng cp es, neqb (nofZ 0) nzero = true -> set_params n g inp = inr p -> fill p s = Ok p' s' ->
    (forall x geno, In x inp -> input_genotype (gspec_of p') x = inr geno -> in_domain (gspec_of p') geno) ->
    pop_in (new_gadata false ng cp es p') s'.
  Proof.
    intros n g inp p s p' s' ng cp es Z0 Sp F Hin r Hr. cbn [new_gadata population] in *.
    apply set_params_inv in Sp. destruct Sp as [_ ->].
    apply fill_ok in F. destruct F as (g' & Hg & F). cbv zeta in F. destruct F as (E & N & X & K). rewrite E in *.
    cbn [members set_members gspec_of set_gspec input_population] in *. apply In_nth_error in Hr. destruct Hr as (i & Hi).
    destruct (K i r Hi) as (geno & <- & _ & _ & _ & _ & _ & _ & G). destruct (nth_error inp i) as [x|] eqn:Ex.
    - apply (Hin x); auto. eapply nth_error_In; eauto.
    - destruct G as (sa & sb & G). eapply generated_ok; eauto. destruct g as [gray gens bp0| |]; [|inversion Hg; exact I|inversion Hg; exact I].
      destruct (prepared_usable gray gens bp0 g' Z0 Hg) as (bp & -> & U & _). exact U.
  Qed.
End DomainProofs.
