(** Which genotypes the draws of one generation can produce. *)
From Coq Require Import String.
From Coq Require Import ZArith List Bool Lia Permutation.
From Verif Require Import Spec Num State Binary Population GaData Crossover Mutation Selection Penalty Fitness NewGeneration Driver
  ListLemmas Rnd Exec Laws PopulationProofs CrossoverProofs MutationProofs SelectionProofs VegaProofs
  NewGenProofs UpdateProofs FitnessProofs StepProofs RunProofs Runs DomainProofs SafetyProofs Fuelless SeedProofs.
Import ListNotations.
Open Scope list_scope.
Open Scope Z_scope.

Section Reach.
  Context {NO : NumOps}.

  (** Computations that use the current generator state only: they ignore the entropy
      source, and a successful run is repeated by its own draws, whatever follows. *)
  Definition steered {A} (m : M A) : Prop :=
    (forall s e, m (set_ent e s) = with_ent e (m s)) /\
    (forall s a s', m s = Ok a s' -> exists ds, forall t, m (set_tape (papp ds t) s) = Ok a (set_tape t s')) /\
    (forall s a s', m s = Ok a s' -> rnd_seed s' = rnd_seed s).

  Ltac congr := let s := fresh in let b := fresh in let s' := fresh in intros s b s' [= <- <-]; reflexivity.
  Lemma rc_ret : forall {A} (a : A), steered (ret a).
  Proof. intros A a. split; [reflexivity|]. split; [|congr]. intros s b s' [= <- <-]. exists []. reflexivity. Qed.
  Lemma rc_raise : forall {A} e, steered (@raise NO A e).
  Proof. intros A e. split; [reflexivity|split; discriminate]. Qed.
  Lemma rc_nofuel : forall {A}, steered (@nofuel NO A).
  Proof. intros A. split; [reflexivity|split; discriminate]. Qed.
  Lemma rc_bind : forall {A B} (m : M A) (k : A -> M B), steered m -> (forall a, steered (k a)) -> steered (bind m k).
  Proof.
    intros A B m k (Em & Tm & Sm) Hk. split; [|split].
    - intros s e. unfold bind. rewrite Em. destruct (m s) as [a s1|x|]; auto. cbn [with_ent]. apply Hk.
    - intros s b s' H. apply bind_ok in H. destruct H as (a & s1 & H1 & H2). apply Tm in H1. destruct H1 as (d1 & H1).
      destruct (Hk a) as (_ & Tk & _). apply Tk in H2. destruct H2 as (d2 & H2). exists (d1 ++ d2). intros t. unfold bind.
      rewrite papp_app, H1. apply H2.
    - intros s b s' H. apply bind_ok in H. destruct H as (a & s1 & H1 & H2). apply Sm in H1. destruct (Hk a) as (_ & _ & Sk). apply Sk in H2. congruence.
  Qed.
  Lemma rc_lift : forall {A} (r : exn + A), steered (lift r).
  Proof. intros A [x|a]; [apply rc_raise|apply rc_ret]. Qed.
  Lemma rc_lift_opt : forall {A} e (r : option A), steered (lift_opt e r).
  Proof. intros A e [a|]; [apply rc_ret|apply rc_raise]. Qed.
  Lemma rc_get : forall r, steered (get r).
  Proof. intros r. split; [reflexivity|]. split; [|congr]. intros s b s' [= <- <-]. exists []. reflexivity. Qed.
  Lemma rc_modify : forall r f, steered (modify r f).
  Proof. intros r f. split; [reflexivity|]. split; [|congr]. intros s b s' [= <- <-]. exists []. reflexivity. Qed.
  Lemma rc_alloc : forall i, steered (alloc i).
  Proof. intros i. split; [reflexivity|]. split; [|congr]. intros s b s' [= <- <-]. exists []. reflexivity. Qed.
  Lemma rc_draw : forall k, steered (draw k).
  Proof. intros k. split; [reflexivity|]. split; [|congr]. intros s b s' [= <- <-]. exists [tape s O]. reflexivity. Qed.
  Lemma rc_mmap : forall {A B} (f : A -> M B) l, (forall a, steered (f a)) -> steered (mmap f l).
  Proof. intros A B f l H. induction l; cbn [mmap]; [apply rc_ret|]. apply rc_bind; auto. intros. apply rc_bind; auto. intros. apply rc_ret. Qed.
  Lemma rc_miter : forall {A} (f : A -> M unit) l, (forall a, steered (f a)) -> steered (miter f l).
  Proof. intros A f l H. induction l; cbn [miter]; [apply rc_ret|]. apply rc_bind; auto. Qed.
  Lemma rc_mrepeat : forall {A} n (m : M A), steered m -> steered (mrepeat n m).
  Proof. intros A n m H. induction n; cbn [mrepeat]; [apply rc_ret|]. apply rc_bind; auto. intros. apply rc_bind; auto. intros. apply rc_ret. Qed.
  Hint Resolve rc_ret rc_raise rc_nofuel rc_lift rc_lift_opt rc_get rc_modify rc_alloc rc_draw : rc.
  Ltac rc_step :=
    match goal with
    | |- forall _, _ => intros
    | |- steered (bind _ _) => apply rc_bind
    | |- steered (mmap _ _) => apply rc_mmap
    | |- steered (miter _ _) => apply rc_miter
    | |- steered (mrepeat _ _) => apply rc_mrepeat
    | |- steered (match ?x with _ => _ end) => destruct x
    | |- steered (let _ := _ in _) => cbv zeta
    | |- steered _ => solve [auto with rc]
    end.
  Ltac rc := repeat rc_step.
  Lemma rc_randint : forall a b, steered (randint a b).
  Proof. intros. unfold randint. rc. Qed.
  Lemma rc_choice : forall {A} (l : list A), steered (choice l).
  Proof. intros. unfold choice. rc. Qed.
  Lemma rc_sample_loop : forall {A} k (l : list A), steered (sample_loop k l).
  Proof. intros A k. induction k; intros l; cbn [sample_loop]; rc. Qed.
  Hint Resolve rc_randint rc_choice rc_sample_loop : rc.
  Lemma rc_sample : forall {A} (l : list A) k, steered (sample l k).
  Proof. intros. unfold sample. rc. Qed.
  Hint Resolve rc_sample : rc.
  Lemma rc_ltb : forall a b, steered (m_ltb a b).
  Proof. intros. unfold m_ltb. rc. Qed.
  Hint Resolve rc_ltb : rc.
  Lemma rc_reset : forall l i, steered (reset_idx_loop i l).
  Proof. induction l; intros i; cbn [reset_idx_loop]; rc. Qed.
  Lemma rc_crossover : forall k n p1 p2, steered (crossover k n p1 p2).
  Proof. intros. unfold crossover, one_point, two_point, uniform, uniform_gene, order, get_idx_segment. rc. Qed.
  Hint Resolve rc_reset rc_crossover : rc.
  Lemma rc_cross_pairs : forall k n first m l, (length l <= m)%nat -> steered (cross_pairs k n first l).
  Proof.
    intros k n first m. induction m; intros [|a [|b l]] H; cbn [cross_pairs length] in *; try lia; unfold get_child; rc.
    apply IHm. lia.
  Qed.
  Lemma rc_best_loop : forall idx tr l b, steered (get_best_loop idx l tr b).
  Proof. intros idx tr. induction tr; intros; cbn [get_best_loop]; unfold better, sv_at; rc. Qed.
  Hint Resolve rc_best_loop : rc.
  Lemma rc_run_tournament : forall idx t l, steered (run_tournament idx t l).
  Proof. intros. unfold run_tournament, get_best. rc. Qed.
  Hint Resolve rc_run_tournament : rc.
  Lemma rc_second_parent : forall fuel idx t l b, steered (second_parent fuel idx t l b).
  Proof. induction fuel; intros; cbn [second_parent]; rc. Qed.
  Hint Resolve rc_second_parent : rc.
  Lemma rc_tournament : forall fuel m idx t gd, steered (tournament fuel m idx t gd).
  Proof. intros. unfold tournament, tournament_pair, get_total_num_parents. rc. Qed.

  (** The same state, except that the second seeding of the generator from the entropy
      source produces the draws [tp]. *)
  Definition second_draws (tp : nat -> Z) (s : st) : st :=
    set_ent (fun k => match k with O => ent s O | S O => tp | S (S i) => ent s (S i) end) s.

  Lemma set_ent_same : forall s, set_ent (ent s) s = s.
  Proof. destruct s; reflexivity. Qed.
  Lemma steered_ent : forall {A} (m : M A) s a s', steered m -> m s = Ok a s' -> ent s' = ent s.
  Proof.
    intros A m s a s' (E & _) H. specialize (E s (ent s)). rewrite set_ent_same, H in E. cbn in E.
    assert (X : s' = set_ent (ent s) s') by congruence. rewrite X. reflexivity.
  Qed.

  (** The second seeding is the crossover's. *)
  Lemma selection_second : forall f t gd s gd1 s1, rnd_seed s = None ->
    selection_execute f (SelTournament t) gd s = Ok gd1 s1 ->
    rnd_seed s1 = None /\
    forall tp, selection_execute f (SelTournament t) gd (second_draws tp s) = Ok gd1 (next_draws tp s1).
  Proof.
    intros f t gd s gd1 s1 Hs H. cbn [selection_execute] in *. bd H u0 s0 R0.
    assert (E0 : s0 = s) by (unfold check_tournament_size in R0; destruct (_ || _); [discriminate|]; apply ret_ok in R0; tauto). subst s0.
    assert (C : forall x, check_tournament_size t (num_individ (population gd)) x = Ok u0 x).
    { intros x. unfold check_tournament_size in *. destruct (_ || _); [discriminate|]. unfold ret in *. congruence. }
    bd H gd0 s2 R1. unfold base_execute in R1. bd R1 u1 s3 R2. unfold get_empty_copy in R1. bd R1 l s4 R3. bd R3 u2 s5 R4.
    apply ret_ok in R3. destruct R3 as [-> ->]. apply ret_ok in R1. destruct R1 as [-> ->].
    pose proof (steered_ent _ _ _ _ (rc_reset _ _) R2) as E3. pose proof R2 as R2'. apply reset_idx_ok in R2'. destruct R2' as (_ & _ & S3 & _).
    unfold do_seed in R4. rewrite S3, Hs in R4. inversion R4; subst s5. clear R4.
    destruct (rc_tournament f None None t (set_parents [] gd)) as (Et & _ & St).
    pose proof (steered_ent _ _ _ _ (rc_tournament f None None t (set_parents [] gd)) H) as E1. cbn [ent set_ent] in E1.
    assert (Sd : rnd_seed s1 = rnd_seed s3) by (apply St in H; rewrite H; reflexivity).
    split; [congruence|]. intros tp. unfold bind at 1. rewrite C. unfold bind at 1. unfold base_execute, bind.
    destruct (rc_reset (members (population gd)) 0) as (Er & _). unfold reset_idx_individ in *. unfold second_draws. rewrite Er, R2. cbn [with_ent].
    unfold get_empty_copy, bind, do_seed. cbn [rnd_seed set_ent]. rewrite S3, Hs. unfold ret.
    match goal with |- tournament _ _ _ _ _ ?x = _ => replace x with (set_ent (fun i => match i with O => tp | S j => ent s3 (S j) end) (set_ent (fun i => ent s3 (S i)) (set_tape (ent s3 0%nat) s3))) end.
    - rewrite Et. unfold get_empty_copy in H. rewrite H. cbn [with_ent]. unfold next_draws. rewrite E1. reflexivity.
    - rewrite E3. reflexivity.
  Qed.

  (** A crossover that succeeds once can be repeated with any continuation of the draws. *)
  Lemma crossover_steer : forall k gd s gd' s', rnd_seed s = None -> crossover_execute k gd s = Ok gd' s' ->
    exists ds, forall e tp, e O = papp ds tp -> crossover_execute k gd (set_ent e s) = Ok gd' (set_tape tp (set_ent (fun i => e (S i)) s')).
  Proof.
    intros k gd s gd' s' Hs H. unfold crossover_execute in *. destruct (members (population gd)) as [|first rest]; [discriminate|].
    bd H i0 sa Ra. apply get_ok in Ra. destruct Ra as [-> ->]. cbv zeta in H. unfold get_empty_copy in H. bd H l sb Rb. bd Rb u sc Rc. apply ret_ok in Rb. destruct Rb as [-> ->].
    bd H cs sd Rd. apply ret_ok in H. destruct H as [-> ->]. unfold do_seed in Rc. rewrite Hs in Rc. inversion Rc; subst sc. clear Rc.
    destruct (rc_cross_pairs k (Z.of_nat (length (genotype (heap s first)))) first _ (parents gd) (le_n _)) as (E & T & _).
    destruct (T _ _ _ Rd) as (ds & D). exists ds. intros e tp He. unfold bind at 1, get. cbv zeta. unfold bind at 1, get_empty_copy, bind at 1, do_seed.
    cbn [rnd_seed set_ent]. rewrite Hs. unfold ret at 1.
    change (heap (set_ent e s) first) with (heap s first). cbn [ent set_ent]. rewrite He.
    match goal with |- bind _ _ ?x = _ => change x with (set_ent (fun i => e (S i)) (set_tape (papp ds tp) (set_ent (fun i => ent s (S i)) (set_tape (ent s 0%nat) s)))) end.
    unfold bind. rewrite E, D. reflexivity.
  Qed.

  (** *** Mutation *)
  (** Some draws make a gene mutate and some do not. *)
  Definition undecided (level : num) : Prop :=
    (exists k, 0 <= k <= 999 /\ fires level k = true) /\ (exists k, 0 <= k <= 999 /\ fires level k = false).
  (** The level a mutation object works with. *)
  Definition level_of (m : mutation) (g : gspec) : exn + num :=
    match m with
    | MutBin l => match g with GenBinary _ _ bp => update_level l (last (idx_bits bp) 0) | _ => inl AttributeError end
    | MutCat l | MutCombi _ l => inr l
    end.
  (** Equal values for Python. *)
  Definition same_gene (x y : gv) : Prop := x = y \/ gv_eqb x y = true.

  Lemma gene_in_values : forall p x, pool_ok p x -> forall y, gene_in p y -> In y (pool_values p).
  Proof.
    intros [a b stp|l|] x [Hp _] y Hy; cbn in *; auto. destruct Hy as (z & i & -> & Hi). apply in_map. apply py_range_spec; auto. exists i. auto.
  Qed.
  Lemma bin_reach : forall level bs bs', undecided level -> length bs = length bs' ->
    exists ds, forall t s, bin_mutation level (map GBit bs) (set_tape (papp ds t) s) = Ok (map GBit bs') (set_tape t s).
  Proof.
    intros level bs bs' ((k1 & H1 & F1) & (k0 & H0 & F0)) L. destruct (bin_possible level (map GBit bs)) as [_ C]. apply C. clear C.
    revert bs' L. induction bs as [|b bs IH]; intros [|b' bs'] L; try discriminate; constructor; auto.
    destruct (Bool.bool_dec b b') as [->|N]; [exists k0; rewrite F0; auto|]. exists k1. rewrite F1. destruct b, b'; try congruence; auto.
  Qed.
  Lemma cat_reach : forall level ps g g', undecided level -> Forall2 pool_ok ps g -> Forall2 gene_in ps g -> Forall2 gene_in ps g' ->
    exists c ds, Forall2 same_gene g' c /\ forall t s, cat_mutation level ps g (set_tape (papp ds t) s) = Ok c (set_tape t s).
  Proof.
    intros level ps g g' ((k1 & H1 & F1) & (k0 & H0 & F0)) Po Gi Gi'.
    assert (X : exists c, Forall2 same_gene g' c /\ Forall3 (cat_result level) ps g c).
    { clear - F1 F0 H1 H0 Po Gi Gi'. revert g' Gi'. induction Po as [|p x ps g Hp Po IH]; intros g' Gi'.
      - inversion Gi'; subst. exists []. split; constructor.
      - inversion Gi' as [|? y ? g'' Hy Gi'']; subst. inversion Gi as [|? ? ? ? Hx Gi0]; subst. destruct (IH Gi0 g'' Gi'') as (c & A & B).
        pose proof (gene_in_values p x Hp y Hy) as Iy. pose proof (gene_in_values p x Hp x Hx) as Ix.
        destruct (gv_eqb y x) eqn:E.
        + exists (x :: c). split; constructor; auto; [right; auto|]. exists k0. rewrite F0. split; auto; reflexivity.
        + exists (y :: c). split; constructor; auto; [left; auto|]. exists k1. rewrite F1. cbn [andb].
          destruct (1 <? zlen (pool_values p)) eqn:El; [auto|]. apply Z.ltb_ge in El. unfold zlen in El.
          destruct (pool_values p) as [|v [|w l]]; cbn in El, Ix, Iy; [contradiction| |lia]. destruct Ix as [<-|[]]. destruct Iy as [<-|[]]. auto. }
    destruct X as (c & A & B). destruct (cat_possible level ps g Po) as [_ C]. destruct (C c B) as (ds & D). eauto.
  Qed.

  (** The mutation of a child of the domain can give it every genotype of the domain. *)
  Definition gene_by_gene (m : mutation) : Prop := match m with MutCombi _ _ => False | _ => True end.
  Lemma child_reach : forall m gd s c cs ck level geno, gene_by_gene m -> belongs ck m (gspec_of (population gd)) ->
    level_of m (gspec_of (population gd)) = inr level -> undecided level ->
    children gd = c :: cs -> in_domain (gspec_of (population gd)) (genotype (heap s c)) ->
    mut_pre m (gspec_of (population gd)) (genotype (heap s c)) -> ~ In c cs -> NoDup cs ->
    in_domain (gspec_of (population gd)) geno ->
    exists ds, forall e t m' s', mutation_execute m gd (set_tape (papp ds t) (set_ent e s)) = Ok m' s' -> Forall2 same_gene geno (genotype (heap s' c)).
  Proof.
    intros m gd s c cs ck level geno Gm B Lv Un Ec Dc Mp Nc Nd Dg.
    assert (Fin : forall (Rel : list gv -> list gv -> Prop) f ds y, (forall g, rnd_only (f g)) -> (forall g s c s', f g s = Ok c s' -> Rel g c) ->
       (forall t s0, f (genotype (heap s c)) (set_tape (papp ds t) s0) = Ok y (set_tape t s0)) ->
       forall e t u s', miter (mutate_child f) (c :: cs) (set_tape (papp ds t) (set_ent e s)) = Ok u s' -> genotype (heap s' c) = y).
    { intros Rel f ds y Rf Rl D e t u s' H. cbn [miter] in H. bd H u1 s1 R1. unfold mutate_child in R1. bd R1 i s2 R2. apply get_ok in R2. destruct R2 as [-> ->].
      change (heap (set_tape (papp ds t) (set_ent e s)) c) with (heap s c) in R1. bd R1 y' s3 R3. rewrite D in R3. inversion R3; subst y' s3. clear R3.
      apply modify_ok in R1. subst s1. apply (mut_step_iter Rel) in H; auto; [|apply mutate_child_step; auto].
      destruct H as (_ & _ & _ & _ & K). destruct (K c) as (g & E & _ & K2). rewrite E, (K2 Nc). cbn. unfold upd. rewrite Nat.eqb_refl. reflexivity. }
    remember (gspec_of (population gd)) as g eqn:Eg. destruct B as [ck m gray gens bp Hk Hm|ck l gens Hk|k l a b n]; [| |contradiction].
    - destruct m as [|l|]; try contradiction. cbn [level_of] in Lv. destruct Dc as (bs & Eb & Lb). destruct Dg as (bs' & -> & Lb').
      destruct (bin_reach level bs bs' Un) as (ds & D); [lia|]. exists ds. intros e t m' s' H. cbn [mutation_execute] in H. rewrite <- Eg in H.
      rewrite Lv in H. bd H lv sa Ra. apply lift_ok in Ra. destruct Ra as [Ra ->]. inversion Ra; subst lv. clear Ra.
      bd H u sb Rb. apply ret_ok in H. destruct H as [-> ->]. rewrite Ec in Rb.
      apply (Fin (fun _ _ => True) _ _ (map GBit bs')) in Rb; auto; [|apply rnd_only_bin|intros; rewrite Eb; apply D].
      rewrite Rb. clear. induction bs'; constructor; auto. left. auto.
    - cbn [level_of] in Lv. inversion Lv; subst l. cbn [mut_pre in_domain] in *. destruct (cat_reach level gens _ geno Un Mp Dc Dg) as (y & ds & Sy & D).
      exists ds. intros e t m' s' H. cbn [mutation_execute] in H. rewrite <- Eg in H.
      bd H u sb Rb. apply ret_ok in H. destruct H as [-> ->]. rewrite Ec in Rb.
      apply (Fin (fun _ _ => True) _ _ y) in Rb; auto; [|intros; apply rnd_only_cat]. rewrite Rb. exact Sy.
  Qed.

  (** *** One generation *)
  (** The steps after selection and crossover leave the mutated children in the next
      population with the genotype the mutation gave them. *)
  Lemma child_stays : forall ok fuel c gd s c' gd' s' gd1 s1 gd2 s2 m' s3, NumOrder NO ok -> single c -> GI ok gd s ->
    selection_execute fuel (c_selection c) gd s = Ok gd1 s1 -> crossover_execute (c_crossover c) gd1 s1 = Ok gd2 s2 ->
    mutation_execute (c_mutation c) gd2 s2 = Ok m' s3 -> ga_step fuel c gd s = Ok (c', gd') s' ->
    forall r, In r (children gd2) -> In r (members (population gd')) /\ genotype (heap s' r) = genotype (heap s3 r).
  Proof.
    intros ok fuel c gd s c' gd' s' gd1 s1 gd2 s2 m' s3 NL (Fk & Ng & Ho) I R1 R2 R3 H. destruct I as [Is Ine Ia It Iso Iasc].
    unfold ga_step in H. unfold bind at 1 in H. rewrite R1 in H. unfold bind at 1 in H. rewrite R2 in H. unfold bind at 1 in H. rewrite R3 in H.
    apply selection_ok in R1; auto. destruct R1 as (T1 & a & n & Hn & -> & La & N1 & Fp). destruct T1 as [(Nx1 & L1 & S1 & P1 & C1) T1].
    apply crossover_made in R2.
    2:{ cbn. intros r Hr. apply Ia in Hr. lia. }
    2:{ cbn [parents set_parents]. intros r Hr. apply in_seq in Hr. lia. }
    cbn [population set_parents parents] in R2. destruct R2 as (first & rest & n' & Em & Ln & -> & N2 & X2 & F2).
    rewrite seq_length in Ln. assert (n' = n) by lia. subst n'. clear Ln. destruct X2 as (_ & L2 & S2 & P2 & X2).
    set (kids := seq (next s1) n) in *. assert (NDk : NoDup kids) by apply seq_NoDup.
    assert (Hkids : forall r, In r kids <-> (next s1 <= r < next s1 + n)%nat) by (intros; apply in_seq).
    apply mutation_execute_ok in R3; [|exact NDk]. cbn [children set_children population set_parents] in R3.
    destruct R3 as [(N3 & L3 & S3 & P3 & Mu) Hm'].
    bd H gd3 s4 R4. apply newgen_single_ok in R4; auto. cbn [children set_children population set_parents] in R4.
    destruct R4 as (l & els & So & Tk & E4 & ->). unfold sorted_from in So. rewrite Iso in So. subst l.
    assert (H4 : heap s4 = heap s3) by (rewrite E4; auto). clear E4.
    destruct (list_snoc _ Ine) as (l1 & b & Eb). destruct (taken_snoc s3 (ng_transfer (c_newgen c)) (num_individ (population gd) - Z.of_nat (length kids)) l1 b els) as (e & Ee & Ie); [rewrite <- Eb; auto|]. rewrite <- Eb in Ie.
    assert (Iels : incl els (members (population gd))).
    { rewrite Ee. intros x Hx. apply in_app_or in Hx. destruct Hx as [Hx|[<-|[]]]; auto. rewrite Eb. apply in_or_app; right; left; auto. }
    assert (Old : forall r, (r < next s)%nat -> heap s4 r = heap s1 r).
    { intros r Hr. rewrite H4. destruct (Mu r) as (g & E & _ & K). rewrite K in E; [|rewrite Hkids; lia]. rewrite E, set_genotype_same. apply X2. lia. }
    assert (Hun1 : forall r, In r kids -> unscored s4 r = true).
    { intros r Hr. rewrite Forall_forall in F2. destruct (F2 r Hr) as (p1 & p2 & g & _ & _ & _ & E). destruct (Mu r) as (g' & E' & _).
      unfold unscored. rewrite H4, E', E. reflexivity. }
    assert (Hun2 : forall r, In r els -> unscored s4 r = false).
    { intros r Hr. apply Iels in Hr. pose proof (Ia r Hr) as Lr. destruct (settled_core ok _ _ _ (C1 r Lr) (It r Hr)) as [(x & E & _) _]. unfold unscored. rewrite Old, E by auto. reflexivity. }
    assert (Dis : forall r, In r kids -> ~ In r els).
    { intros r Hr C. apply Iels, Ia in C. apply Hkids in Hr. lia. }
    bd H u5 s5 R5. unfold fitness_execute in R5. rewrite Fk in R5. cbn [is_multi_kind] in R5.
    apply base_fitness_ok in R5.
    2:{ cbn [population with_next set_children set_population set_sorted set_members members]. intros r Hr Hu. apply in_app_or in Hr.
        destruct Hr as [Hr|Hr]; [apply once_app; auto|]. rewrite Hun2 in Hu by auto. discriminate. }
    cbn [population with_next set_children set_population set_sorted set_members set_parents members gspec_of idx_generation best_solution] in R5.
    change (length (seq (next s1) n)) with (length kids) in *.
    rewrite (news_app s4 kids els NDk Hun1 Hun2) in R5.
    destruct R5 as (h & cs & Fh & Fo & _ & L5 & As & O5).
    bd H gd4 s6 R6. apply ret_ok in H. destruct H as [E ->]. inversion E; subst c' gd4. clear E.
    unfold update in R6. cbn [is_multi with_next set_children set_population set_parents] in R6. rewrite Is in R6.
    apply update_single_ok in R6. destruct R6 as (-> & l0 & bst & md & w & So & Hmd & Hw & Hb & ->).
    cbn [population with_next set_children set_population set_parents] in So. unfold sorted_from in So. cbn [is_sorted set_sorted] in So.
    cbn [members set_members set_sorted] in So. change (seq (next s1) n) with kids in So.
    apply sort_ok in So. destruct So as (_ & Pm & _).
    cbn [children set_children]. intros r Hr. split.
    - cbn [updated population members set_members set_sorted with_next set_children set_population set_parents]. apply (Permutation_in _ (Permutation_sym Pm)), in_or_app; auto.
    - destruct (assessed_in _ _ _ _ _ _ _ _ _ _ As Hr) as (v & k' & _ & _ & Av). apply assess_keeps in Av. destruct Av as (-> & _).
      rewrite (filled_genotype _ _ _ (Fh r (in_or_app _ _ _ (or_introl Hr)))), H4. reflexivity.
  Qed.

  (** The rest of a generation needs no fuel. *)
  Lemma step_no_fuel : forall fuel c gd s gd1 s1, selection_execute fuel (c_selection c) gd s = Ok gd1 s1 -> ga_step fuel c gd s <> NoFuel.
  Proof.
    intros fuel c gd s gd1 s1 R. unfold ga_step. unfold bind at 1. rewrite R.
    assert (F : fuelless (gd2 <- crossover_execute (c_crossover c) gd1 ;; m' <- mutation_execute (c_mutation c) gd2 ;; gd3 <- newgen_execute (c_newgen c) gd2 ;;
       fitness_execute (c_fitness c) gd3 ;;; gd4 <- update gd3 ;; ret (set_mutation m' c, gd4))); [|apply F].
    apply fl_bind; [apply fl_crossover_execute|]. intros gd2. apply fl_bind; [apply fl_mutation_execute|]. intros m'. apply fl_bind; [apply fl_newgen|]. intros gd3.
    apply fl_bind; [apply fl_fitness_execute|]. intros u. apply fl_bind; [apply fl_update|]. intros gd4. apply fl_ret.
  Qed.

  Lemma step_reach : forall ok fuel c gd s gd1 s1 level geno, NumOrder NO ok -> going ok c gd s -> rnd_seed s = None ->
    gene_by_gene (c_mutation c) -> level_of (c_mutation c) (gspec_of (population gd)) = inr level -> undecided level ->
    selection_execute fuel (c_selection c) gd s = Ok gd1 s1 -> in_domain (gspec_of (population gd)) geno ->
    exists ds, forall tp, exists c' gd' s' r, ga_step fuel c gd (second_draws (papp ds tp) s) = Ok (c', gd') s' /\
      In r (members (population gd')) /\ (next s <= r)%nat /\ Forall2 same_gene geno (genotype (heap s' r)).
  Proof.
    intros ok fuel c gd s gd1 s1 level geno NL G Hs Gm Lv Un R1 Dg. pose proof G as (Gi & Si & Gs & Rd & Pi & Hn & Hg & Hb & He).
    destruct (rd_sel _ _ _ Rd) as (t & Et & Ht). rewrite Et in R1. destruct (selection_second _ _ _ _ _ _ Hs R1) as [Hs1 Sel]. rewrite <- Et in Sel, R1.
    assert (Ok1 : forall tp, exists c' gd' s', ga_step fuel c gd (second_draws tp s) = Ok (c', gd') s').
    { intros tp. assert (Sa : safe (ga_step fuel c gd) (second_draws tp s)).
      { apply (ga_step_safe ok); auto. destruct Gi as [A1 A2 A3 A4 A5 A6]. constructor; auto. }
      pose proof (step_no_fuel _ _ _ _ _ _ (Sel tp)) as Nf. unfold safe in Sa. destruct (ga_step _ _ _ _) as [[c' gd'] s'|x|]; [eauto|exfalso; apply (Sa x); auto|congruence]. }
    (* the crossover with some draws *)
    assert (Cr : exists gd2 s2, crossover_execute (c_crossover c) gd1 (next_draws (fun _ => 0) s1) = Ok gd2 s2).
    { destruct (Ok1 (fun _ => 0)) as (c' & gd' & s' & H). unfold ga_step in H. unfold bind at 1 in H. rewrite Sel in H.
      bd H gd2 s2 R2. eauto. }
    destruct Cr as (gd2 & s2 & R2). pose proof R2 as R2'. apply crossover_steer in R2'; [|exact Hs1]. destruct R2' as (d1 & Cx).
    (* the first child *)
    pose proof R1 as R1'. apply selection_ok in R1'; [|apply Gi|apply Si]. destruct R1' as (T1 & a & n & Hnn & E1 & La & N1 & Fp). destruct T1 as [(Nx1 & L1 & S1 & P1 & C1) T1].
    assert (Hn1 : (1 <= n)%nat).
    { rewrite Et in Hnn. cbn in Hnn. destruct Hnn as (x & Hx & ->). destruct (rd_pairs _ _ _ Rd) as (y & Hy & Hy1). assert (x = y) by congruence. lia. }
    pose proof R2 as R2'. apply crossover_made in R2'.
    2:{ rewrite E1. cbn. intros r Hr. apply (gi_alloc _ _ _ Gi) in Hr. lia. }
    2:{ rewrite E1. cbn [parents set_parents]. intros r Hr. apply in_seq in Hr. cbn. lia. }
    rewrite E1 in R2'. cbn [population set_parents parents] in R2'. destruct R2' as (first & rest & n' & Em & Ln & E2 & N2 & X2 & F2).
    rewrite seq_length in Ln. assert (n' = n) by lia. subst n'. clear Ln.
    destruct n as [|n]; [lia|]. cbn [seq] in E2, F2. change (next (next_draws (fun _ => 0) s1)) with (next s1) in *.
    assert (G1 : forall r, In r (members (population gd)) -> genotype (heap s1 r) = genotype (heap s r)) by (intros r Hr; destruct (C1 r (gi_alloc _ _ _ Gi r Hr)) as (E & _); auto).
    assert (Par : forall r, In r (seq a (2 * S n)) -> exists m, In m (members (population gd)) /\ genotype (heap s1 r) = genotype (heap s m)).
    { intros r Hr. rewrite Forall_forall in Fp. destruct (Fp r Hr) as (m & Im & E). exists m. split; auto. destruct E as (E & _). auto. }
    assert (Dc : in_domain (gspec_of (population gd)) (genotype (heap s2 (next s1)))).
    { rewrite Forall_forall in F2. destruct (F2 (next s1) (or_introl eq_refl)) as (p1 & p2 & g & I1 & I2 & Ma & E). rewrite E. cbn.
      assert (If : In first (members (population gd))) by (rewrite Em; left; auto).
      destruct (Par _ I1) as (m1 & M1 & Eq1). destruct (Par _ I2) as (m2 & M2 & Eq2). cbn [heap next_draws set_ent] in Ma. rewrite Eq1, Eq2, G1 in Ma by auto.
      eapply domain_made; [apply (rd_belongs _ _ _ Rd)| | | |exact Ma]; apply Pi; auto. }
    assert (Eg : gspec_of (population gd2) = gspec_of (population gd)) by (rewrite E2; reflexivity).
    assert (Nd : NoDup (seq (next s1) (S n))) by apply seq_NoDup. inversion Nd as [|? ? Nc Nd']; subst.
    destruct (child_reach (c_mutation c) (set_children (next s1 :: seq (S (next s1)) n) (set_parents (seq a (2 * S n)) gd)) s2 (next s1) (seq (S (next s1)) n) (c_crossover c) level geno) as (d2 & Mx); auto.
    - apply (rd_belongs _ _ _ Rd).
    - apply (rd_geno _ _ _ Rd). exact Dc.
    - exists (d1 ++ d2). intros tp. set (e := fun k => match k with O => papp (d1 ++ d2) tp | S i => ent s1 i end).
      assert (Sx : selection_execute fuel (c_selection c) gd (second_draws (papp (d1 ++ d2) tp) s) = Ok (set_parents (seq a (2 * S n)) gd) (set_ent e s1)) by (apply Sel).
      assert (Cy := Cx e (papp d2 tp)). cbn [e] in Cy. rewrite papp_app in Cy. specialize (Cy eq_refl).
      destruct (Ok1 (papp (d1 ++ d2) tp)) as (c' & gd' & s' & H). pose proof H as H0. unfold ga_step in H0. unfold bind at 1 in H0. rewrite Sx in H0.
      unfold bind at 1 in H0. change (set_ent e (next_draws (fun _ : nat => 0) s1)) with (set_ent e s1) in Cy. rewrite Cy in H0.
      bd H0 m' s3 R3. clear H0.
      exists c', gd', s', (next s1). split; auto.
      assert (Gi' : GI ok gd (second_draws (papp (d1 ++ d2) tp) s)) by (destruct Gi as [A1 A2 A3 A4 A5 A6]; constructor; auto).
      destruct (child_stays ok fuel c gd _ c' gd' s' _ _ _ _ m' s3 NL Si Gi' Sx Cy R3 H (next s1)) as [Im Eq]; [left; auto|].
      split; auto. split; [lia|]. rewrite Eq. eapply Mx. exact R3.
  Qed.

  (** A new member of the population has just been evaluated. *)
  Lemma step_called : forall ok fuel c gd s c' gd' s' r, NumOrder NO ok -> going ok c gd s -> ga_step fuel c gd s = Ok (c', gd') s' ->
    In r (members (population gd')) -> (next s <= r)%nat ->
    exists calls pt v, log s' = calls ++ log s /\ In (pt, v) calls /\ spec_point (gspec_of (population gd)) (genotype (heap s' r)) pt.
  Proof.
    intros ok fuel c gd s c' gd' s' r NL (G & Si & Gs & Rd & Pi & Hn & Hg & Hb & He) H Hr Nr. pose proof Si as (Fk & Ng & Ho).
    destruct (step_ok ok fuel c gd s c' gd' s' NL Gs Fk Ng Ho G H) as (kids & els & h & cs & l0 & bst & md & w & St & G').
    destruct (st_members _ _ _ _ _ _ _ _ _ _ _ _ _ _ St) as [_ Pm]. apply (Permutation_in _ Pm), in_app_or in Hr. destruct Hr as [Hr|Hr].
    - destruct (assessed_in _ _ _ _ _ _ _ _ _ _ (st_eval _ _ _ _ _ _ _ _ _ _ _ _ _ _ St) Hr) as (v & k & Ic & _ & A).
      exists (rev cs), (point (gspec_of (population gd)) (h r)), v. split; [apply (st_log _ _ _ _ _ _ _ _ _ _ _ _ _ _ St)|].
      split; [rewrite <- in_rev; auto|]. apply assess_keeps in A. destruct A as (-> & _). apply decoded_point. apply (st_fresh _ _ _ _ _ _ _ _ _ _ _ _ _ _ St). auto.
    - exfalso. destruct (st_els _ _ _ _ _ _ _ _ _ _ _ _ _ _ St) as (e & b & l1 & -> & Em & Ie).
      assert (Im : In r (members (population gd))) by (apply in_app_or in Hr; destruct Hr as [Hr|[<-|[]]]; auto; rewrite Em; apply in_or_app; right; left; auto).
      apply (gi_alloc _ _ _ G) in Im. lia.
  Qed.

  (** The level of a mutation object stays the same when a name is resolved. *)
  Lemma step_level : forall fuel c gd s c' gd' s', ga_step fuel c gd s = Ok (c', gd') s' ->
    (forall gd1 s1, selection_execute fuel (c_selection c) gd s = Ok gd1 s1 -> population gd1 = population gd) ->
    level_of (c_mutation c') (gspec_of (population gd)) = level_of (c_mutation c) (gspec_of (population gd)) /\
    (gene_by_gene (c_mutation c) -> gene_by_gene (c_mutation c')).
  Proof.
    intros fuel c gd s c' gd' s' H Hp. unfold ga_step in H. bd H gd1 s1 R1. apply Hp in R1. bd H gd2 s2 R2.
    assert (E2 : population gd2 = population gd).
    { unfold crossover_execute in R2. destruct (members (population gd1)) as [|f0 r0]; [discriminate|]. bd R2 i0 sa Ra. bd R2 l sb Rb. bd R2 cs sc Rc. apply ret_ok in R2. destruct R2 as [-> _]. exact R1. }
    bd H m' s3 R3. bd H gd3 s4 R4. bd H u s5 R5. bd H gd4 s6 R6. apply ret_ok in H. destruct H as [E ->]. inversion E; subst c' gd4. clear E. cbn [c_mutation set_mutation].
    rewrite <- E2. destruct (c_mutation c) as [k l|l|l]; cbn [mutation_execute] in R3.
    - bd R3 v sa Ra. apply ret_ok in R3. destruct R3 as [-> _]. auto.
    - destruct (gspec_of (population gd2)) as [gray gens bp| |]; try discriminate. bd R3 lv sa Ra. bd R3 v sb Rb. apply ret_ok in R3. destruct R3 as [-> _].
      apply lift_ok in Ra. destruct Ra as [Ra _]. cbn [level_of update_level]. rewrite Ra. auto.
    - destruct (gspec_of (population gd2)); bd R3 v sa Ra; apply ret_ok in R3; destruct R3 as [-> _]; auto.
  Qed.

  (** What is known at every generation of a run that cannot raise. *)
  Lemma generation_going : forall ok fuel c gd0 s0, NumOrder NO ok -> going ok c gd0 s0 -> forall k c' gd' s', steps fuel c gd0 s0 k c' gd' s' ->
    going ok c' gd' s' /\ rnd_seed s' = rnd_seed s0 /\ gspec_of (population gd') = gspec_of (population gd0) /\
    level_of (c_mutation c') (gspec_of (population gd0)) = level_of (c_mutation c) (gspec_of (population gd0)) /\
    (gene_by_gene (c_mutation c) -> gene_by_gene (c_mutation c')).
  Proof.
    intros ok fuel c gd0 s0 NL G k c' gd' s' T. induction T as [|k c1 gd1 s1 c2 gd2 s2 T IH H]; [auto|].
    destruct IH as (G1 & E1 & E2 & E3 & E4). split; [eapply going_step; eauto|]. pose proof G1 as (GI1 & Si & Gs & _). pose proof Si as (Fk & Ng & Ho).
    destruct (step_ok ok fuel c1 gd1 s1 c2 gd2 s2 NL Gs Fk Ng Ho GI1 H) as (kids & els & h & cs & l0 & bst & md & w & St & G').
    destruct (st_seed _ _ _ _ _ _ _ _ _ _ _ _ _ _ St) as [Es _]. split; [congruence|].
    split; [rewrite (st_pop _ _ _ _ _ _ _ _ _ _ _ _ _ _ St); cbn; auto|].
    destruct (step_level _ _ _ _ _ _ _ H) as [L1 L2].
    { intros gd s R. apply selection_ok in R; [|apply GI1|exact Ho]. destruct R as (_ & a & n & _ & -> & _). reflexivity. }
    rewrite E2 in L1. split; [congruence|auto].
  Qed.
End Reach.
