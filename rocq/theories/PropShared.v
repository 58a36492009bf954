(** Statement C92: mutation of children that share their list of genes two by two
    (uniform crossover with num_offsprings other than 1). *)
From Coq Require Import String.
From Coq Require Import ZArith QArith List Bool Lia Permutation.
From Verif Require Import Spec Num State Binary Population GaData Crossover Mutation Offsprings ListLemmas Rnd Exec Laws
  CrossoverProofs MutationProofs Demo PropCrossover PropOffsprings.
Import ListNotations.
Open Scope list_scope.
Open Scope Z_scope.

Section C92.
  Context {NO : NumOps}.
  (** What one application of a mutation may do to a list of genes. *)
  Definition one_step (m : mutation) (gs : gspec) (g c : list gv) : Prop :=
    match m with
    | MutCombi k _ => c = g \/ match k with Movement => moved g c | Swap_ => swapped g c | Inversion => inverted g c | Shift => shifted g c end
    | MutBin _ => Forall2 (fun x y => y = x \/ y = match x with GBit false => GBit true | _ => GBit false end) g c
    | MutCat _ => List.length c = List.length g /\
        match gs with
        | GenCat ps => forall i p x y, nth_error ps i = Some p -> nth_error g i = Some x -> nth_error c i = Some y ->
             y = x \/ (gv_eqb y x = false /\ match p with CList l => In y l | CRange a b stp => exists z, y = GInt z /\ In z (py_range a (b + 1) stp) | COther => False end)
        | _ => c = g
        end
    end.
  (** The children two by two with equal lists. *)
  Definition paired (s : st) (cs : list nat) : Prop :=
    Nat.Even (List.length cs) /\ Forall (fun p => genotype (heap s (fst p)) = genotype (heap s (snd p))) (pairs_of cs).

  Definition shared_step (Rel : list gv -> list gv -> Prop) (f : nat -> nat -> M unit) : Prop :=
    forall a b s u s', a <> b -> genotype (heap s a) = genotype (heap s b) -> f a b s = Ok u s' ->
      exists g, Rel (genotype (heap s a)) g /\ heap s' a = set_genotype g (heap s a) /\ heap s' b = set_genotype g (heap s b) /\
        (forall r, r <> a -> r <> b -> heap s' r = heap s r) /\ next s' = next s /\ log s' = log s.
  Lemma mutate_shared_step : forall (Rel : list gv -> list gv -> Prop) f, (forall g, rnd_only (f g)) ->
    (forall g s c s', f g s = Ok c s' -> Rel g c) -> shared_step Rel (mutate_shared f).
  Proof.
    intros Rel f Hr Hf a b s u s' Hab Heq H. unfold mutate_shared in H. bd H i s1 R1. apply get_ok in R1. destruct R1 as [-> ->].
    bd H g s2 R2. pose proof (frame_heap_rnd _ _ _ _ (Hr _) R2) as (E1 & E2 & E3 & E4 & E5). bd H v s3 R3. apply modify_ok in R3, H. subst s3 s'.
    exists g. split; [eapply Hf; eauto|]. cbn [heap set_heap next log]. unfold upd. rewrite !Nat.eqb_refl.
    assert (Eab : Nat.eqb a b = false) by (apply Nat.eqb_neq; auto). assert (Eba : Nat.eqb b a = false) by (apply Nat.eqb_neq; auto). rewrite ?Eab, ?Eba, ?E1.
    split; [reflexivity|]. split; [reflexivity|]. split; [|auto]. intros r Ha Hb. apply Nat.eqb_neq in Ha, Hb. rewrite Ha, Hb. reflexivity.
  Qed.
  Lemma combi_shared_step : forall k level, shared_step (fun g c => c = g \/ combi_result k g c) (combi_shared k level).
  Proof.
    intros k level a b s u s' Hab Heq H. unfold combi_shared in H. bd H w s1 R1.
    pose proof (frame_heap_rnd _ _ _ _ (rnd_only_determines _) R1) as (E1 & E2 & E3 & E4 & E5). destruct w.
    - apply (mutate_shared_step (combi_result k)) in H; [|apply rnd_only_combi| |exact Hab|rewrite E1; exact Heq].
      + destruct H as (g & Rg & H). exists g. rewrite E1, E2, E3 in *. split; [right; exact Rg|exact H].
      + intros g s0 c s0' H0. destruct (le_lt_dec (combi_min k) (List.length g)) as [Hl|Hl].
        * apply (possible_sound _ _ _ _ _ (combi_possible k g Hl)) in H0. tauto.
        * rewrite combi_short in H0 by auto. discriminate.
    - apply ret_ok in H. destruct H as [_ ->]. exists (genotype (heap s a)). rewrite set_genotype_same, Heq, set_genotype_same, E1. auto 8.
  Qed.

  Definition twice (Rel : list gv -> list gv -> Prop) (cs : list nat) (s s' : st) : Prop :=
    next s' = next s /\ log s' = log s /\ (forall r, ~ In r cs -> heap s' r = heap s r) /\
    Forall (fun p => exists g1 g2, Rel (genotype (heap s (fst p))) g1 /\ Rel g1 g2 /\
        heap s' (fst p) = set_genotype g2 (heap s (fst p)) /\ heap s' (snd p) = set_genotype g2 (heap s (snd p))) (pairs_of cs).
  Lemma set_genotype_set : forall a b i, set_genotype a (set_genotype b i) = set_genotype a i.
  Proof. destruct i; reflexivity. Qed.
  Lemma genotype_set : forall a i, genotype (set_genotype a i) = a.
  Proof. destruct i; reflexivity. Qed.
  Lemma pairs_in : forall (l : list nat) p, In p (pairs_of l) -> In (fst p) l /\ In (snd p) l.
  Proof. intros l. pattern l. apply pair_ind; clear l; simpl; try tauto. intros a b l IH p [<-|Hp]; simpl; auto. apply IH in Hp. tauto. Qed.
  Lemma iter_shared_twice : forall Rel f cs s u s', shared_step Rel f -> NoDup cs -> paired s cs -> iter_shared f cs s = Ok u s' -> twice Rel cs s s'.
  Proof.
    intros Rel f cs s u s' Hf. revert s. pattern cs. apply pair_ind; clear cs.
    - intros s ND P H. apply ret_ok in H. destruct H as [_ ->]. split; auto. split; auto. split; auto. constructor.
    - intros a s ND [[m Em] P] H. cbn in Em. lia.
    - intros a b l IH s ND [[m Em] P] H. cbn [iter_shared] in H. bd H v s1 R1. bd H w s2 R2.
      inversion ND as [|? ? Na ND1]; subst. inversion ND1 as [|? ? Nb ND2]; subst. cbn [pairs_of] in P. inversion P as [|? ? P1 P2]; subst. cbn [fst snd] in P1.
      assert (Hab : a <> b) by (intros ->; apply Na; left; auto).
      destruct (Hf a b s v s1 Hab P1 R1) as (g1 & Rg1 & Ha1 & Hb1 & Ho1 & N1 & L1).
      assert (P1' : genotype (heap s1 b) = genotype (heap s1 a)) by (rewrite Ha1, Hb1, !genotype_set; auto).
      destruct (Hf b a s1 w s2 (not_eq_sym Hab) P1' R2) as (g2 & Rg2 & Hb2 & Ha2 & Ho2 & N2 & L2).
      assert (Ho : forall r, r <> a -> r <> b -> heap s2 r = heap s r) by (intros r Hra Hrb; rewrite Ho2, Ho1; auto).
      assert (Hin : forall r, In r l -> heap s2 r = heap s r). { intros r Hr. apply Ho; intros ->; [apply Na; right; auto|auto]. }
      destruct (IH s2 ND2) as (N & L & O & F); auto.
      { split; [exists (m - 1)%nat; cbn in Em; lia|]. rewrite Forall_forall in *. intros p Hp. destruct (pairs_in _ _ Hp) as [I1 I2]. rewrite !Hin by auto. apply P2; auto. }
      split; [congruence|]. split; [congruence|]. split.
      + intros r Hr. rewrite O by (intros C; apply Hr; right; right; auto). apply Ho; intros ->; apply Hr; [left|right; left]; auto.
      + cbn [pairs_of]. constructor.
        * exists g1, g2. cbn [fst snd]. split; auto. rewrite Hb1, genotype_set in Rg2. split; auto.
          rewrite (O a) by (intros C; apply Na; right; exact C). rewrite (O b) by exact Nb. rewrite Ha2, Hb2, Ha1, Hb1, !set_genotype_set. auto.
        * rewrite Forall_forall in *. intros p Hp. destruct (F p Hp) as (h1 & h2 & A & B & C & D). destruct (pairs_in _ _ Hp) as [I1 I2].
          rewrite (Hin (fst p)) in A, C by auto. rewrite (Hin (snd p)) in D by auto. exists h1, h2. auto.
  Qed.

  Lemma cat_one_step : forall level ps g s c s', cat_mutation level ps g s = Ok c s' -> one_step (MutCat level) (GenCat ps) g c.
  Proof.
    intros level ps g s c s' H. apply cat_mutation_ok in H. destruct H as [L K]. split; auto.
    intros i p x y Hp Hx Hy. destruct (K _ _ _ _ Hp Hx Hy) as (k & Hk & C). destruct (_ && _); auto. right. destruct C as [C1 C2]. split; auto.
    destruct p as [a b stp|l|]; cbn [pool_values] in C1; auto. apply in_map_iff in C1. destruct C1 as (z & <- & Hz). eauto.
  Qed.
  Lemma bin_one_step : forall level l gs g s c s', bin_mutation level g s = Ok c s' -> one_step (MutBin l) gs g c.
  Proof.
    intros level l gs g s c s' H. apply (possible_sound _ _ _ _ _ (bin_possible level g)) in H. destruct H as [F _].
    eapply Forall2_impl; [|exact F]. intros x y (k & Hk & ->). destruct (fires level k); auto.
  Qed.
  (** Every run on children whose lists are shared two by two: the list of each pair is
      mutated once for each of its two children, so both children end with the same,
      twice mutated list; only the lists of the children change. *)
  Theorem C92_twice : forall m gd s m' s', (forall level, m <> MutCombi Inversion level) -> NoDup (children gd) -> paired s (children gd) ->
    mutation_execute_shared m gd s = Ok m' s' ->
    next s' = next s /\ log s' = log s /\ (forall r, ~ In r (children gd) -> heap s' r = heap s r) /\
    Forall (fun p => exists g1 g2,
        one_step m (gspec_of (population gd)) (genotype (heap s (fst p))) g1 /\ one_step m (gspec_of (population gd)) g1 g2 /\
        heap s' (fst p) = set_genotype g2 (heap s (fst p)) /\ heap s' (snd p) = set_genotype g2 (heap s (snd p))) (pairs_of (children gd)).
  Proof.
    intros m gd s m' s' NI ND P H. change (twice (one_step m (gspec_of (population gd))) (children gd) s s').
    destruct m as [k level|l|level]; cbn [mutation_execute_shared] in H.
    - assert (H' : (iter_shared (combi_shared k level) (children gd) ;;; ret (MutCombi k level)) s = Ok m' s') by (destruct k; auto; elim (NI level eq_refl)).
      clear H. bd H' u s1 R1. apply ret_ok in H'. destruct H' as [_ ->]. eapply iter_shared_twice; [|exact ND|exact P|exact R1].
      pose proof (combi_shared_step k level) as C. destruct k; exact C.
    - destruct (gspec_of (population gd)); try discriminate. bd H level s1 R1. apply lift_ok in R1. destruct R1 as [R1 ->].
      bd H u s2 R2. apply ret_ok in H. destruct H as [_ ->]. eapply iter_shared_twice; [|exact ND|exact P|exact R2].
      apply mutate_shared_step; [apply rnd_only_bin|]. intros g s0 c s0' H0. eapply bin_one_step; eauto.
    - destruct (gspec_of (population gd)) as [gray gens bp|ps|a b c]; bd H u s2 R2; apply ret_ok in H; destruct H as [_ ->];
        (eapply iter_shared_twice; [|exact ND|exact P|exact R2]); (apply mutate_shared_step; [intros; apply rnd_only_cat|]);
        intros g s0 c0 s0' H0.
      + apply cat_other in H0; [subst; split; reflexivity|]. apply Forall_forall. intros p Hp. apply in_map_iff in Hp. destruct Hp as (? & <- & _). reflexivity.
      + eapply cat_one_step; eauto.
      + apply cat_other in H0; [subst; split; reflexivity|]. repeat constructor.
  Qed.
  (** Inversion gives each child a list of its own. *)
  Theorem C92_inversion : forall level gd s m' s', NoDup (children gd) -> mutation_execute_shared (MutCombi Inversion level) gd s = Ok m' s' ->
    next s' = next s /\ log s' = log s /\ (forall r, ~ In r (children gd) -> heap s' r = heap s r) /\
    forall r, In r (children gd) -> exists g, heap s' r = set_genotype g (heap s r) /\ (g = genotype (heap s r) \/ inverted (genotype (heap s r)) g).
  Proof.
    intros level gd s m' s' ND H. change (mutation_execute (MutCombi Inversion level) gd s = Ok m' s') in H. apply mutation_execute_ok in H; auto.
    destruct H as [(N & L & _ & _ & K) _]. split; auto. split; auto. split.
    - intros r Hr. destruct (K r) as (g & E & _ & K2). rewrite E, (K2 Hr). apply set_genotype_same.
    - intros r Hr. destruct (K r) as (g & E & K1 & _). exists g. split; auto. exact (K1 Hr).
  Qed.

  (** *** Bits: a bit changes when exactly one of its two gates opens. *)
  Definition bits_of (g : list gv) : Prop := Forall (fun x => exists b, x = GBit b) g.
  Lemma iter_shared_bits : forall level cs s u s', NoDup cs -> paired s cs -> iter_shared (mutate_shared (bin_mutation level)) cs s = Ok u s' ->
    twice (fun g c => Forall2 (fun x y => exists k, 0 <= k <= 999 /\ y = if fires level k then flip x else x) g c) cs s s'.
  Proof.
    intros level cs s u s' ND P H. eapply iter_shared_twice; [|exact ND|exact P|exact H]. apply mutate_shared_step; [apply rnd_only_bin|].
    intros g s0 c s0' H0. apply (possible_sound _ _ _ _ _ (bin_possible level g)) in H0. tauto.
  Qed.
  (** At a level at which every draw opens the gate, a mutation of shared bit strings
      changes nothing at all. *)
  Theorem C92_full_level : forall level gray gens bp gd s m' s', gspec_of (population gd) = GenBinary gray gens bp -> NoDup (children gd) -> paired s (children gd) ->
    (forall r, In r (children gd) -> bits_of (genotype (heap s r))) ->
    (forall k, 0 <= k <= 999 -> nleb (nofZ k) (nmul level (nofZ 1000)) = true) ->
    mutation_execute_shared (MutBin (LFloat level)) gd s = Ok m' s' ->
    next s' = next s /\ log s' = log s /\ forall r, heap s' r = heap s r.
  Proof.
    intros level gray gens bp gd s m' s' G ND P B Hf H. cbn [mutation_execute_shared] in H. rewrite G in H. cbn [update_level] in H.
    bd H lv s1 R1. apply lift_ok in R1. destruct R1 as [R1 ->]. inversion R1; subst lv. bd H u s2 R2. apply ret_ok in H. destruct H as [_ ->].
    apply iter_shared_bits in R2; auto. destruct R2 as (N & L & O & F). split; auto. split; auto. intros r.
    destruct (in_dec Nat.eq_dec r (children gd)) as [I|I]; auto.
    assert (Hp : exists p, In p (pairs_of (children gd)) /\ (r = fst p \/ r = snd p)).
    { destruct P as [Ev _]. revert I Ev. clear. pattern (children gd). apply pair_ind.
      - intros [].
      - intros a _ [m Em]. cbn in Em. lia.
      - intros a b l IH I [m Em]. cbn [pairs_of]. destruct I as [->|[->|I]].
        + exists (r, b). split; [left; auto|auto].
        + exists (a, r). split; [left; auto|auto].
        + destruct IH as (p & Ip & Hp); auto; [exists (m - 1)%nat; cbn in Em; lia|]. exists p. split; [right; auto|auto]. }
    destruct Hp as (p & Ip & Hr). rewrite Forall_forall in F. destruct (F p Ip) as (g1 & g2 & F1 & F2 & E1 & E2).
    assert (E : g2 = genotype (heap s (fst p))).
    { destruct (pairs_in _ _ Ip) as [I1 _]. specialize (B _ I1). clear - F1 F2 Hf B. revert g2 F2. unfold bits_of in B.
      induction F1 as [|x y g g1 (k & Hk & ->) F1 IH]; intros g2 F2; inversion F2 as [|? z ? g2' (k' & Hk' & ->) F2']; subst; auto.
      inversion B as [|? ? [b ->] B']; subst. f_equal; auto. unfold fires. rewrite (Hf k Hk), (Hf k' Hk'). destruct b; reflexivity. }
    destruct P as [_ P]. rewrite Forall_forall in P. specialize (P p Ip). destruct Hr as [->| ->]; [rewrite E1|rewrite E2]; subst g2; [|rewrite P]; apply set_genotype_same.
  Qed.
  (** Exactly: the draws decide.  Two children sharing one list of bits, two draws for
      each bit; a bit is inverted iff exactly one of its draws opens the gate. *)
  Theorem C92_draws : forall level gray gens bp gd a b bs ks1 ks2 t s, gspec_of (population gd) = GenBinary gray gens bp ->
    children gd = [a; b] -> a <> b -> genotype (heap s a) = map GBit bs -> genotype (heap s b) = map GBit bs ->
    List.length ks1 = List.length bs -> List.length ks2 = List.length bs -> Forall (fun k => 0 <= k <= 999) (ks1 ++ ks2) ->
    exists s', mutation_execute_shared (MutBin (LFloat level)) gd (set_tape (papp (ks1 ++ ks2) t) s) = Ok (MutBin (LFloat level)) s' /\
      genotype (heap s' a) = genotype (heap s' b) /\ List.length (genotype (heap s' a)) = List.length bs /\
      forall i x k1 k2, nth_error bs i = Some x -> nth_error ks1 i = Some k1 -> nth_error ks2 i = Some k2 ->
        nth_error (genotype (heap s' a)) i =
          Some (GBit (xorb x (xorb (nleb (nofZ k1) (nmul level (nofZ 1000))) (nleb (nofZ k2) (nmul level (nofZ 1000)))))).
  Proof.
    intros level gray gens bp gd a b bs ks1 ks2 t s G Ec Hab Ga Gb L1 L2 F. apply Forall_app in F. destruct F as [F1 F2].
    cbn [mutation_execute_shared]. rewrite G, Ec. cbn [update_level iter_shared].
    set (mu := fun ks g => map (fun kx => if fires level (fst kx) then flip (snd kx) else snd kx) (combine ks g)).
    assert (ST : forall ks g r tw t0 s0, r <> tw -> genotype (heap s0 r) = g -> List.length ks = List.length g -> Forall (fun k => 0 <= k <= 999) ks ->
      exists s1, mutate_shared (bin_mutation level) r tw (set_tape (papp ks t0) s0) = Ok tt (set_tape t0 s1) /\
        genotype (heap s1 r) = mu ks g /\ genotype (heap s1 tw) = mu ks g).
    { intros ks g r tw t0 s0 Hne E L Fk.
      exists (set_heap (upd (upd (heap s0) r (set_genotype (mu ks g) (heap s0 r))) tw (set_genotype (mu ks g) (upd (heap s0) r (set_genotype (mu ks g) (heap s0 r)) tw))) s0).
      split; [|cbn [heap set_heap]; unfold upd; apply Nat.eqb_neq in Hne; rewrite !Nat.eqb_refl, Hne, !genotype_set; auto].
      unfold mutate_shared, bind. cbv [get]. change (heap (set_tape (papp ks t0) s0)) with (heap s0). rewrite E. rewrite bin_run by auto. reflexivity. }
    rewrite papp_app.
    destruct (ST ks1 (map GBit bs) a b (papp ks2 t) s Hab Ga ltac:(rewrite map_length; exact L1) F1) as (s1 & X1 & A1 & B1).
    assert (Lm : List.length (mu ks1 (map GBit bs)) = List.length bs) by (unfold mu; rewrite map_length, combine_length, map_length; lia).
    destruct (ST ks2 _ b a t s1 (not_eq_sym Hab) B1 ltac:(rewrite Lm; exact L2) F2) as (s2 & X2 & B2 & A2).
    exists (set_tape t s2). split; [|split; [|split]].
    - unfold bind, lift. rewrite X1, X2. reflexivity.
    - change (genotype (heap s2 a) = genotype (heap s2 b)). rewrite A2, B2. reflexivity.
    - change (List.length (genotype (heap s2 a)) = List.length bs). rewrite A2. unfold mu at 1. rewrite map_length, combine_length. lia.
    - intros i x k1 k2 Hx H1 H2. change (heap (set_tape t s2)) with (heap s2). rewrite A2.
      assert (MU : forall ks g k y, nth_error ks i = Some k -> nth_error g i = Some y -> nth_error (mu ks g) i = Some (if fires level k then flip y else y)).
      { clear. intros ks g k y Hk Hy. unfold mu. revert g Hk Hy. revert ks. induction i as [|i IH]; intros [|k0 ks] [|z g] Hk Hy; try discriminate; cbn in *; [inversion Hk; inversion Hy; reflexivity|auto]. }
      rewrite (MU ks2 _ k2 _ H2 (MU ks1 _ k1 (GBit x) H1 (map_nth_error _ _ _ Hx))). unfold fires.
      destruct (nleb (nofZ k1) _), (nleb (nofZ k2) _), x; reflexivity.
  Qed.

  (** No exception: permutations long enough for the move, genes from pools that can mutate. *)
  Lemma iter_shared_safe : forall (Rel : list gv -> list gv -> Prop) f (pre : list gv -> Prop) cs s, shared_step Rel f -> NoDup cs -> paired s cs ->
    (forall g c, pre g -> Rel g c -> pre c) -> (forall r, In r cs -> pre (genotype (heap s r))) ->
    (forall a b s, pre (genotype (heap s a)) -> safe (f a b) s) -> safe (iter_shared f cs) s.
  Proof.
    intros Rel f pre cs s Hf ND P Hpre Hp Hs. revert s ND P Hp. pattern cs. apply pair_ind; clear cs.
    - intros. apply safe_ret.
    - intros a s ND P Hp. apply Hs, Hp. left; auto.
    - intros a b l IH s ND [[m Em] P] Hp. cbn [iter_shared].
      inversion ND as [|? ? Na ND1]; subst. inversion ND1 as [|? ? Nb ND2]; subst. cbn [pairs_of] in P. inversion P as [|? ? P1 P2]; subst. cbn [fst snd] in P1.
      assert (Hab : a <> b) by (intros ->; apply Na; left; auto).
      apply safe_bind; [apply Hs, Hp; left; auto|]. intros v s1 R1. destruct (Hf a b s v s1 Hab P1 R1) as (g1 & Rg1 & Ha1 & Hb1 & Ho1 & _).
      assert (P1' : genotype (heap s1 b) = genotype (heap s1 a)) by (rewrite Ha1, Hb1, !genotype_set; auto).
      assert (Q1 : pre g1) by (eapply Hpre; [apply Hp; left; auto|exact Rg1]).
      apply safe_bind; [apply Hs; rewrite Hb1, genotype_set; auto|]. intros w s2 R2.
      destruct (Hf b a s1 w s2 (not_eq_sym Hab) P1' R2) as (g2 & Rg2 & Hb2 & Ha2 & Ho2 & _).
      assert (Hin : forall r, In r l -> heap s2 r = heap s r). { intros r Hr. assert (r <> a /\ r <> b) as [? ?] by (split; intros ->; [apply Na; right; auto|auto]). rewrite Ho2, Ho1; auto. }
      apply IH; auto.
      + split; [exists (m - 1)%nat; cbn in Em; lia|]. rewrite Forall_forall in *. intros p Hq. destruct (pairs_in _ _ Hq) as [I1 I2]. rewrite !Hin by auto. apply P2; auto.
      + intros r Hr. rewrite Hin by auto. apply Hp. right; right; auto.
  Qed.
  Lemma mutate_shared_safe : forall f a b s, safe (f (genotype (heap s a))) s -> safe (mutate_shared f a b) s.
  Proof.
    intros f a b s H. unfold mutate_shared. apply safe_bind; [apply safe_get|]. intros i s1 R1. apply get_ok in R1. destruct R1 as [-> ->].
    apply safe_bind; [exact H|]. intros g s2 R2. apply safe_bind; [apply safe_modify|intros; apply safe_modify].
  Qed.
  (** What a mutation needs to succeed on a list of genes. *)
  Definition can_mutate (m : mutation) (gs : gspec) (g : list gv) : Prop :=
    match m with
    | MutCombi Shift _ => (3 <= List.length g)%nat
    | MutCombi _ _ => (2 <= List.length g)%nat
    | MutBin _ => exists gray gens bp, gs = GenBinary gray gens bp
    | MutCat _ => exists ps, gs = GenCat ps /\ Forall2 (fun p x => pool_ok p x /\ forall y, In y (pool_values p) -> pool_ok p y) ps g
    end.
  Theorem C92_no_exception : forall m gd s e, NoDup (children gd) -> paired s (children gd) ->
    match m with MutBin (LFloat _) => exists gray gens bp, gspec_of (population gd) = GenBinary gray gens bp
               | MutBin _ => False | MutCat _ => exists ps, gspec_of (population gd) = GenCat ps | MutCombi _ _ => True end ->
    (forall r, In r (children gd) -> can_mutate m (gspec_of (population gd)) (genotype (heap s r))) ->
    mutation_execute_shared m gd s <> Err e.
  Proof.
    intros m gd s e ND P Hm Hp. assert (X : safe (mutation_execute_shared m gd) s); [|exact (X e)].
    destruct m as [k level|l|level].
    - assert (Hp' : forall r, In r (children gd) -> (combi_min k <= List.length (genotype (heap s r)))%nat) by (intros r Hr; specialize (Hp r Hr); destruct k; exact Hp).
      assert (Y : safe (iter_shared (combi_shared k level) (children gd) ;;; ret (MutCombi k level)) s).
      { apply safe_bind; [|intros; apply safe_ret].
        eapply iter_shared_safe with (pre := fun g => (combi_min k <= List.length g)%nat); [apply combi_shared_step|exact ND|exact P| |exact Hp'|].
        - intros g c Hg [->|C]; auto. apply combi_perm in C. rewrite <- (Permutation_length C). exact Hg.
        - intros a b s0 H0. unfold combi_shared. apply safe_bind; [eapply safe_possible, determines_possible|].
          intros w s1 R1. destruct w; [|apply safe_ret]. pose proof (frame_heap_rnd _ _ _ _ (rnd_only_determines _) R1) as (E1 & _).
          unfold mutate_shared. apply safe_bind; [apply safe_get|]. intros i s2 R2. apply get_ok in R2. destruct R2 as [-> ->].
          apply safe_bind; [eapply safe_possible, combi_possible; rewrite E1; auto|]. intros g s3 R3. apply safe_bind; intros; apply safe_modify. }
      destruct k; try exact Y. apply (mutation_execute_safe (MutCombi Inversion level)); [exact ND|exact I|exact Hp'].
    - destruct l as [|x|]; try contradiction. destruct Hm as (gray & gens & bp & G). cbn [mutation_execute_shared]. rewrite G. cbn [update_level].
      apply safe_bind; [eapply safe_lift; reflexivity|]. intros y s1 R1. apply lift_ok in R1. destruct R1 as [_ ->]. apply safe_bind; [|intros; apply safe_ret].
      eapply iter_shared_safe with (Rel := fun _ _ => True) (pre := fun _ => True); auto.
      + apply mutate_shared_step; [apply rnd_only_bin|auto].
      + intros a b s0 _. apply mutate_shared_safe. eapply safe_possible, bin_possible.
    - destruct Hm as (ps & G). cbn [mutation_execute_shared]. rewrite G in *. apply safe_bind; [|intros; apply safe_ret].
      eapply iter_shared_safe with (Rel := one_step (MutCat level) (GenCat ps))
        (pre := Forall2 (fun p x => pool_ok p x /\ forall y, In y (pool_values p) -> pool_ok p y) ps); auto.
      + apply mutate_shared_step; [intros; apply rnd_only_cat|]. intros. eapply cat_one_step; eauto.
      + intros g c Fg [L K]. clear - Fg L K. revert c L K. induction Fg as [|p x ps g [Hx Hv] Fg IH]; intros [|y c] L K; cbn in L; try lia; constructor.
        * split; auto. destruct (K 0%nat p x y eq_refl eq_refl eq_refl) as [->|[_ C]]; auto. apply Hv.
          destruct p; cbn [pool_values]; [destruct C as (z & -> & Hz); apply in_map; exact Hz|exact C|destruct C].
        * apply IH; [lia|]. intros i q u v. apply (K (S i)).
      + intros r Hr. destruct (Hp r Hr) as (ps' & E & F). inversion E; subst. exact F.
      + intros a b s0 F. apply mutate_shared_safe. eapply safe_possible, cat_possible.
        eapply Forall2_impl; [|exact F]. intros p x [C _]. exact C.
  Qed.

  (** The level: a number stays, a string becomes a number by the total number of bits; on a
      population that is not binary a bit-string mutation raises AttributeError.  The other
      mutations stay as they are. *)
  Theorem C92_level : forall m gd s,
    match m, gspec_of (population gd) with
    | MutBin l, GenBinary _ _ bp => let len := nofZ (last (idx_bits bp) 0) in
        forall m' s', mutation_execute_shared m gd s = Ok m' s' ->
        match l with
        | LFloat x => m' = m
        | LStr t => neqb len (nofZ 0) = false /\
            m' = MutBin (LFloat (ndiv_raw (if String.eqb t "weak" then ndiv_raw (nofZ 3) (nofZ 10) else if String.eqb t "normal" then nofZ 1 else nofZ 3) len))
        | LOther => False
        end
    | MutBin _, _ => mutation_execute_shared m gd s = Err AttributeError
    | _, _ => forall m' s', mutation_execute_shared m gd s = Ok m' s' -> m' = m
    end.
  Proof.
    intros [k level|l|level] gd s.
    - destruct (gspec_of (population gd)); intros m' s' H; cbn [mutation_execute_shared] in H; destruct k; bd H u s1 R1; apply ret_ok in H; tauto.
    - destruct (gspec_of (population gd)) as [gray gens bp| |] eqn:G; try (cbn [mutation_execute_shared]; rewrite G; reflexivity).
      cbv zeta. intros m' s' H. cbn [mutation_execute_shared] in H. rewrite G in H.
      bd H x s1 R1. apply lift_ok in R1. destruct R1 as [R1 _]. bd H u s2 R2. apply ret_ok in H. destruct H as [-> _].
      destruct l as [t|y|]; cbn [update_level] in R1; [|congruence|discriminate].
      unfold py_div, nzero in R1. unfold dec in R1.
      destruct (String.eqb t "weak"), (String.eqb t "normal"); destruct (neqb _ _) eqn:E; inversion R1; subst; auto.
    - destruct (gspec_of (population gd)) eqn:G; intros m' s' H; cbn [mutation_execute_shared] in H; rewrite G in H; bd H u s1 R1; apply ret_ok in H; tauto.
  Qed.

  (** *** Crossover and mutation together *)
  Section Both.
    Context {ok : num -> Prop} (NL : NumOrder NO ok).
    (** After a uniform crossover that keeps both children and any mutation but inversion
        the children are two by two the same: m pairs of parents give at most m different
        genotypes.  The list of each pair is a uniform mixture of its parents, mutated
        twice.  Members and parents are as they were. *)
    Theorem C92_pairs : forall m n gd s m' gd' s', (forall level, m <> MutCombi Inversion level) -> cross_pre (ok := ok) Uniform n gd s ->
      offspring_generation m gd s = Ok (m', gd') s' ->
      gd' = set_children (children gd') gd /\ List.length (children gd') = List.length (parents gd) /\ log s' = log s /\
      (forall r, (r < next s)%nat -> heap s' r = heap s r) /\
      Forall2 (fun p c => genotype (heap s' (fst c)) = genotype (heap s' (snd c)) /\
          exists g g1, List.length g = n /\
            (forall i, (i < n)%nat -> nth_error g i = nth_error (genotype (heap s (fst p))) i \/ nth_error g i = nth_error (genotype (heap s (snd p))) i) /\
            one_step m (gspec_of (population gd)) g g1 /\ one_step m (gspec_of (population gd)) g1 (genotype (heap s' (fst c))))
        (pairs_of (parents gd)) (pairs_of (children gd')).
    Proof.
      intros m n gd s m' gd' s' NI C H. unfold offspring_generation in H. bd H gd1 s1 R1. bd H m1 s2 R2. apply ret_ok in H. destruct H as [E ->]. inversion E; subst m1 gd1. clear E.
      pose proof R1 as K. apply (C81_children NL Uniform n) in K; [|exact C]. destruct K as (E1 & L1 & Sq & Fr & Lg & F).
      assert (Ev : Nat.Even (List.length (parents gd))).
      { unfold crossover_execute_both in R1. destruct (members (population gd)); [discriminate|]. bd R1 i0 t1 Q1. bd R1 u t2 Q2. bd R1 cs t3 Q3.
        clear - Q3. revert Q3. generalize (Z.of_nat (List.length (genotype i0))) as z. intros z. revert t2 cs t3. pattern (parents gd). apply pair_ind.
        - intros. exists 0%nat. reflexivity.
        - intros a t2 cs t3 H. discriminate.
        - intros a b l IH t2 cs t3 H. cbn [cross_pairs_both] in H. bd H x1 y1 W1. bd H x2 y2 W2. bd H x3 y3 W3. bd H x4 y4 W4. destruct (IH _ _ _ W4) as [w Ew]. exists (S w). cbn. lia. }
      assert (ND : NoDup (children gd')) by (rewrite Sq; apply seq_NoDup).
      assert (P : paired s1 (children gd')).
      { split; [rewrite L1; exact Ev|]. clear - F. induction F as [|p c ps cs [[T _] _] F IH]; constructor; auto. }
      apply C92_twice in R2; auto. destruct R2 as (N2 & L2 & O2 & F2).
      split; [exact E1|]. split; [exact L1|]. split; [congruence|]. split.
      - intros r Hr. rewrite O2; auto. rewrite Sq. intros I. apply in_seq in I. lia.
      - assert (Gs : gspec_of (population gd') = gspec_of (population gd)) by (rewrite E1; reflexivity). rewrite Gs in F2. clear - F F2.
        induction F as [|p c ps cs [(T1 & T2 & T3) _] F IH]; constructor.
        + inversion F2 as [|? ? (g1 & g2 & A & B & C & D) _]; subst. rewrite C, D, !genotype_set. split; auto. exists (genotype (heap s1 (fst c))), g1. auto.
        + apply IH. inversion F2; auto.
    Qed.
  End Both.
End C92.

(** Two bit strings sharing one list; level 1/10: draws up to 100 open a gate.  The first
    bit gets one open gate, the second two, the third none. *)
Local Existing Instance Qops.
Definition C92_pop : pop := mkPop [2]%nat false 1 (GenBinary false [] (mkBP [3] [8] [1%Q] [0; 3])) [].
Definition C92_state := world [ind (map GBit [true; true; false]) SVNone; ind (map GBit [true; true; false]) SVNone; ind (map GBit [true; false; false]) (q 1)] [50; 7; 500; 101; 100; 999].
Definition C92_gd : gadata := set_children [0; 1]%nat (gd_of C92_pop).
Definition C92_pgd : gadata := set_children [0; 1]%nat (gd_of (cat_pop 0)).
Example C92_example :
  NoDup (children C92_gd) /\ paired C92_state (children C92_gd) /\
  observe (fun m s' => (m, map (fun r => genotype (heap s' r)) [0; 1; 2]%nat)) (mutation_execute_shared (MutBin (LFloat (1#10))) C92_gd C92_state) =
    Some (MutBin (LFloat (1#10)), [map GBit [false; true; false]; map GBit [false; true; false]; map GBit [true; false; false]]).
Proof.
  split; [repeat constructor; simpl; intuition discriminate|]. split; [|run].
  split; [exists 1%nat; reflexivity|]. repeat constructor.
Qed.
(** Ordinary mutation, without sharing, gives two different children on the same draws. *)
Example C92_without_sharing :
  observe (fun m s' => map (fun r => genotype (heap s' r)) [0; 1]%nat) (mutation_execute (MutBin (LFloat (1#10))) C92_gd C92_state) =
    Some [map GBit [false; false; false]; map GBit [true; false; false]].
Proof. run. Qed.
(** Level 1: every gate opens. *)
Example C92_full_case :
  (forall k, 0 <= k <= 999 -> nleb (nofZ k) (nmul 1%Q (nofZ 1000)) = true) /\
  (forall r, In r (children C92_gd) -> bits_of (genotype (heap C92_state r))) /\
  observe (fun m s' => map (fun r => genotype (heap s' r)) [0; 1]%nat) (mutation_execute_shared (MutBin (LFloat 1%Q)) C92_gd C92_state) =
    Some [map GBit [true; true; false]; map GBit [true; true; false]].
Proof.
  split; [|split; [|run]].
  - intros k Hk. apply Qle_bool_iff. unfold Qle, nofZ, nmul. cbn. lia.
  - intros r [<-|[<-|[]]]; repeat constructor; eauto.
Qed.
Example C92_level_case : observe (fun m s' => m) (mutation_execute_shared (MutBin (LStr "strong")) C92_gd C92_state) = Some (MutBin (LFloat (ndiv_raw 3%Q (nofZ 3)))) /\
  mutation_execute_shared (MutBin (LStr "strong")) C92_pgd C92_state = Err AttributeError.
Proof. split; run. Qed.
(** A swap for each child on one shared permutation; inversion on two lists. *)
Definition C92_perm := world [ind (ints [1; 2; 3; 4]) SVNone; ind (ints [1; 2; 3; 4]) SVNone] [0; 0; 0; 0; 1; 2].
Example C92_perm_example :
  (forall r, In r (children C92_pgd) -> can_mutate (MutCombi Swap_ 1%Q) (GenCat []) (genotype (heap C92_perm r))) /\
  paired C92_perm (children C92_pgd) /\
  observe (fun m s' => map (fun r => genotype (heap s' r)) [0; 1]%nat) (mutation_execute_shared (MutCombi Swap_ 1%Q) C92_pgd C92_perm) =
    Some [ints [2; 4; 3; 1]; ints [2; 4; 3; 1]] /\
  observe (fun m s' => map (fun r => genotype (heap s' r)) [0; 1]%nat) (mutation_execute_shared (MutCombi Inversion 1%Q) C92_pgd C92_perm) =
    Some [ints [2; 1; 3; 4]; ints [1; 4; 3; 2]].
Proof.
  split; [intros r [<-|[<-|[]]]; cbn; lia|]. split; [split; [exists 1%nat; reflexivity|repeat constructor]|]. split; run.
Qed.
(** Crossover and mutation of two pairs of parents. *)
Example C92_pairs_example :
  cross_pre (ok := fun _ => True) Uniform 4 C15_gd (set_ent mixed C15_state) /\
  observe (fun r s' => map (fun c => genotype (heap s' c)) (children (snd r))) (offspring_generation (MutCombi Movement 1%Q) C15_gd (set_ent mixed C15_state)) =
    Some [ints [4; 3; 4; 3]; ints [4; 3; 4; 3]; ints [2; 3; 2; 1]; ints [2; 3; 2; 1]].
Proof.
  split; [|run]. destruct (proj1 C15_example) as (A & B & C). split; [exact A|]. split; [exact B|].
  intros r Hr. destruct (C r Hr) as [C1 [C2 _]]. split; auto. split; auto. intros X; discriminate X.
Qed.

Print Assumptions C92_twice.
Print Assumptions C92_inversion.
Print Assumptions C92_full_level.
Print Assumptions C92_draws.
Print Assumptions C92_no_exception.
Print Assumptions C92_pairs.
Print Assumptions C92_level.
