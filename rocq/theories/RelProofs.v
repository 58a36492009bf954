(** Two executions side by side: the second one may live at other heap addresses, may have
    another history of objective calls, and its objective values and scores are only ordered
    like those of the first (used for C61 and C62). *)
From Coq Require Import String.
From Coq Require Import ZArith List Bool Lia.
From Verif Require Import Num State Binary Population GaData Crossover Mutation Selection Penalty Fitness NewGeneration Driver
  ListLemmas Rnd Exec Laws PopulationProofs FitnessProofs AssessProofs.
Import ListNotations.
Open Scope list_scope.
Open Scope Z_scope.

Section ListRel.
  Context {A B : Type} (P : A -> B -> Prop).
  Lemma F2_length : forall l m, Forall2 P l m -> length l = length m.
  Proof. induction 1; cbn; congruence. Qed.
  Lemma F2_nth_error : forall l m, Forall2 P l m -> forall k, match nth_error l k, nth_error m k with Some a, Some b => P a b | None, None => True | _, _ => False end.
  Proof. induction 1 as [|a b l m H F IH]; intros [|k]; cbn; auto. apply IH. Qed.
  Lemma F2_firstn : forall l m, Forall2 P l m -> forall k, Forall2 P (firstn k l) (firstn k m).
  Proof. induction 1 as [|a b l m H F IH]; intros [|k]; cbn; auto. Qed.
  Lemma F2_skipn : forall l m, Forall2 P l m -> forall k, Forall2 P (skipn k l) (skipn k m).
  Proof. induction 1 as [|a b l m H F IH]; intros [|k]; cbn; auto. Qed.
  Lemma F2_app : forall l m l' m', Forall2 P l m -> Forall2 P l' m' -> Forall2 P (l ++ l') (m ++ m').
  Proof. intros. apply Forall2_app; auto. Qed.
  Lemma F2_remove_at : forall l m k, Forall2 P l m -> Forall2 P (remove_at k l) (remove_at k m).
  Proof. intros. unfold remove_at. apply F2_app; [apply F2_firstn|apply F2_skipn]; auto. Qed.
  Lemma F2_slice_from : forall l m i, Forall2 P l m -> Forall2 P (slice_from l i) (slice_from m i).
  Proof. intros l m i H. unfold slice_from. rewrite (F2_length _ _ H). apply F2_skipn; auto. Qed.
  Lemma F2_slice_to : forall l m i, Forall2 P l m -> Forall2 P (slice_to l i) (slice_to m i).
  Proof. intros l m i H. unfold slice_to. rewrite (F2_length _ _ H). apply F2_firstn; auto. Qed.
  Lemma F2_py_nth : forall l m i, Forall2 P l m -> match py_nth l i, py_nth m i with Some a, Some b => P a b | None, None => True | _, _ => False end.
  Proof. intros l m i H. unfold py_nth. rewrite (F2_length _ _ H). destruct (_ || _); auto. apply F2_nth_error; auto. Qed.
  Lemma F2_nth : forall l m, Forall2 P l m -> forall k a b, P a b -> P (nth k l a) (nth k m b).
  Proof. induction 1 as [|a b l m H F IH]; intros [|k]; cbn; auto. Qed.
End ListRel.
Lemma F2_refl : forall {A} (l : list A), Forall2 eq l l.
Proof. induction l; constructor; auto. Qed.
Lemma F2_eq : forall {A} (l m : list A), Forall2 eq l m -> l = m.
Proof. intros A l m H. induction H; congruence. Qed.

Section Rel.
  Context {NO : NumOps}.
  (** The heap addresses and the earlier calls of the two executions when they start. *)
  Variables (n1 n2 : nat) (h1 h2 : list (list gv * oval)).
  (** Individuals made before correspond as in [was], new ones in the order they are made. *)
  Variable was : nat -> nat -> Prop.
  Hypothesis was_one : forall a b a' b', was a b -> was a' b' -> (a = a' <-> b = b').
  Hypothesis was_old : forall a b, was a b -> (a < n1)%nat /\ (b < n2)%nat.
  (** Corresponding references. *)
  Definition fresh_pair (r r' : nat) : Prop := exists i, r = (n1 + i)%nat /\ r' = (n2 + i)%nat.
  Definition rr (r r' : nat) : Prop := was r r' \/ fresh_pair r r'.
  (** [R k a x]: a in the first execution corresponds to x in the second, as the k-th
      component of a score.  [O v w]: so do the recorded objective values v and w. *)
  Variable R : nat -> num -> num -> Prop.
  Variable O : sval -> sval -> Prop.
  Hypothesis O_none : O SVNone SVNone.
  Hypothesis R_lt : forall k a b x y, R k a x -> R k b y -> nltb a b = nltb x y.
  Hypothesis R_eqb : forall k a b x y, R k a x -> R k b y -> neqb a b = neqb x y.
  (** The objective values are compared by the multi-objective classes only. *)
  Variable mult : Prop.
  Hypothesis O_eqb : mult -> forall v w x y, O v x -> O w y -> sv_eqb v w = sv_eqb x y.
  Hypothesis O_len : mult -> forall l m, O (SVL l) (SVL m) -> length l = length m.
  Hypothesis O_max : mult -> forall l m l' m', O (SVL l) (SVL l') -> O (SVL m) (SVL m') ->
    match max_score l m, max_score l' m' with inl e, inl e' => e = e' | inr a, inr b => lst_eqb a l = lst_eqb b l' /\ lst_eqb a m = lst_eqb b m' | _, _ => False end.

  Fixpoint lrel (P : nat -> num -> num -> Prop) (k : nat) (l m : list num) : Prop :=
    match l, m with
    | [], [] => True
    | x :: l', y :: m' => P k x y /\ lrel P (S k) l' m'
    | _, _ => False
    end.
  Inductive vrel (P : nat -> num -> num -> Prop) : sval -> sval -> Prop :=
  | vr_none : vrel P SVNone SVNone
  | vr_num : forall x y, P 0%nat x y -> vrel P (SV1 x) (SV1 y)
  | vr_list : forall l m, lrel P 0%nat l m -> vrel P (SVL l) (SVL m).
  Record irel (i j : individ) : Prop := mkIrel {
    ir_geno : genotype i = genotype j; ir_phen : phenotype i = phenotype j; ir_score : vrel R (score i) (score j); ir_obj : O (obj_score i) (obj_score j);
    ir_feas : feasible i = feasible j; ir_idx : idx_individ i = idx_individ j; ir_rank : rank i = rank j }.
  Record sim (s t : st) : Prop := mkSim {
    sm_heap : forall r r', rr r r' -> irel (heap s r) (heap t r'); sm_next : fresh_pair (next s) (next t); sm_tape : tape s = tape t; sm_ent : ent s = ent t;
    sm_seed : rnd_seed s = rnd_seed t; sm_prng : prng s = prng t;
    sm_log : exists c d, log s = c ++ h1 /\ log t = d ++ h2 /\ map fst c = map fst d }.
  Definition orel {A B} (Q : A -> B -> Prop) (o : outcome A) (p : outcome B) : Prop :=
    match o, p with
    | Ok a s, Ok b t => Q a b /\ sim s t
    | Err e, Err e' => e = e'
    | NoFuel, NoFuel => True
    | _, _ => False
    end.
  Definition rel {A B} (Q : A -> B -> Prop) (m : M A) (n : M B) : Prop := forall s t, sim s t -> orel Q (m s) (n t).

  Lemma rel_ret : forall {A B} (Q : A -> B -> Prop) a b, Q a b -> rel Q (ret a) (ret b).
  Proof. intros A B Q a b H s t S. split; auto. Qed.
  Lemma rel_raise : forall {A B} (Q : A -> B -> Prop) e, rel Q (raise e) (raise e).
  Proof. intros A B Q e s t S. reflexivity. Qed.
  Lemma rel_nofuel : forall {A B} (Q : A -> B -> Prop), rel Q nofuel nofuel.
  Proof. intros A B Q s t S. exact I. Qed.
  Lemma rel_bind : forall {A B C D} (Q : A -> B -> Prop) (P : C -> D -> Prop) m n k l, rel Q m n -> (forall a b, Q a b -> rel P (k a) (l b)) ->
    rel P (bind m k) (bind n l).
  Proof.
    intros A B C D Q P m n k l Hm Hk s t S. specialize (Hm s t S). unfold bind. destruct (m s), (n t); cbn in Hm; try tauto; try contradiction.
    destruct Hm as [q S']. apply (Hk _ _ q); auto.
  Qed.
  Lemma rel_bind_eq : forall {A C D} (P : C -> D -> Prop) (m n : M A) k l, rel eq m n -> (forall a, rel P (k a) (l a)) -> rel P (bind m k) (bind n l).
  Proof. intros A C D P m n k l Hm Hk. eapply rel_bind; [exact Hm|]. intros a b <-. apply Hk. Qed.
  Lemma rel_lift : forall {A} (r : exn + A), rel eq (lift r) (lift r).
  Proof. intros A [e|a] s t S; cbn; auto. Qed.
  Lemma rel_lift_opt : forall {A} e (r : option A), rel eq (lift_opt e r) (lift_opt e r).
  Proof. intros A e [a|] s t S; cbn; auto. Qed.
  Lemma rel_lift_opt_in : forall {A B} (Q : A -> B -> Prop) e x y, match x, y with Some a, Some b => Q a b | None, None => True | _, _ => False end ->
    rel Q (lift_opt e x) (lift_opt e y).
  Proof. intros A B Q e [a|] [b|] H s t S; cbn; auto; contradiction. Qed.
  Definition erel {A B} (Q : A -> B -> Prop) (x : exn + A) (y : exn + B) : Prop :=
    match x, y with inl e, inl e' => e = e' | inr a, inr b => Q a b | _, _ => False end.
  Lemma rel_lift_in : forall {A B} (Q : A -> B -> Prop) x y, erel Q x y -> rel Q (lift x) (lift y).
  Proof. intros A B Q [e|a] [e'|b] H s t S; cbn in *; auto; contradiction. Qed.
  Lemma rel_get : forall r r', rr r r' -> rel irel (get r) (get r').
  Proof. intros r r' H s t S. split; auto. apply S; auto. Qed.
  Lemma rr_eqb : forall r r' q q', rr r r' -> rr q q' -> Nat.eqb r q = Nat.eqb r' q'.
  Proof.
    intros r r' q q' [b|(i & -> & ->)] [d|(j & -> & ->)].
    - pose proof (was_one _ _ _ _ b d) as E. destruct (Nat.eqb_spec r q), (Nat.eqb_spec r' q'); auto; tauto.
    - apply was_old in b. destruct (Nat.eqb_spec r (n1 + j)), (Nat.eqb_spec r' (n2 + j)); auto; lia.
    - apply was_old in d. destruct (Nat.eqb_spec (n1 + i) q), (Nat.eqb_spec (n2 + i) q'); auto; lia.
    - destruct (Nat.eqb_spec (n1 + i) (n1 + j)), (Nat.eqb_spec (n2 + i) (n2 + j)); auto; lia.
  Qed.
  Lemma rel_modify : forall r r' f g, rr r r' -> (forall i j, irel i j -> irel (f i) (g j)) -> rel eq (modify r f) (modify r' g).
  Proof.
    intros r r' f g Hr H s t S. split; auto. destruct S as [Sh]. constructor; cbn; auto. intros q q' Hq. unfold upd. rewrite (rr_eqb q q' r r'); auto. destruct (Nat.eqb q' r'); auto.
  Qed.
  Lemma rel_alloc : forall i j, irel i j -> rel rr (alloc i) (alloc j).
  Proof.
    intros i j H s t S. destruct S as [Sh Sn St]. split; [right; exact Sn|]. constructor; cbn; auto.
    - intros r r' Hr. unfold upd. rewrite (rr_eqb r r' (next s) (next t)); auto; [|right; exact Sn]. destruct (Nat.eqb r' (next t)); auto.
    - destruct Sn as (k & -> & ->). exists (S k). lia.
  Qed.
  Lemma rel_seed : rel eq do_seed do_seed.
  Proof.
    intros s t S. unfold do_seed. rewrite (sm_seed _ _ S). destruct S as [Sh Sn St Se Ss Sp Sl]. destruct (rnd_seed t) eqn:Et.
    - split; auto. constructor; cbn; auto; congruence.
    - split; auto. constructor; cbn; auto; try congruence; rewrite Se; reflexivity.
  Qed.
  Lemma rel_draw : forall k, rel eq (draw k) (draw k).
  Proof. intros k s t S. destruct S as [Sh Sn St]. unfold draw. rewrite St. split; auto. constructor; cbn; auto. Qed.

  Lemma rel_mfold : forall {A B C} (Q : A -> B -> Prop) (f : A -> C -> M A) (g : B -> C -> M B) l, (forall a b c, In c l -> Q a b -> rel Q (f a c) (g b c)) ->
    forall a b, Q a b -> rel Q (mfold f l a) (mfold g l b).
  Proof.
    intros A B C Q f g. induction l as [|c l IH]; intros H a b q; cbn [mfold]; [apply rel_ret; auto|]. eapply rel_bind; [apply H, q; left; auto|].
    intros. apply IH; auto. intros. apply H; auto. right; auto.
  Qed.
  Lemma rel_mmap : forall {A B C D} (P : A -> B -> Prop) (Q : C -> D -> Prop) f g, (forall a b, P a b -> rel Q (f a) (g b)) -> forall l m, Forall2 P l m -> rel (Forall2 Q) (mmap f l) (mmap g m).
  Proof.
    intros A B C D P Q f g H l m F. induction F as [|a b l m Hab F IH]; cbn [mmap]; [apply rel_ret; auto|]. eapply rel_bind; [apply H, Hab|]. intros c d q.
    eapply rel_bind; [apply IH|]. intros cs ds qs. apply rel_ret. constructor; auto.
  Qed.
  Lemma rel_weaken : forall {A B} (Q P : A -> B -> Prop) m n, (forall a b, Q a b -> P a b) -> rel Q m n -> rel P m n.
  Proof. intros A B Q P m n H K s t S. specialize (K s t S). destruct (m s), (n t); cbn in *; auto. destruct K; split; auto. Qed.
  Lemma rel_mmap_eq : forall {A B C} (P : A -> B -> Prop) (f : A -> M C) g, (forall a b, P a b -> rel eq (f a) (g b)) -> forall l m, Forall2 P l m -> rel eq (mmap f l) (mmap g m).
  Proof. intros A B C P f g H l m F. eapply rel_weaken; [apply F2_eq|]. eapply rel_mmap; eauto. Qed.
  Lemma rel_mmap_self : forall {A C} (f : A -> M C), (forall a, rel eq (f a) (f a)) -> forall l, rel eq (mmap f l) (mmap f l).
  Proof. intros A C f H l. apply (rel_mmap_eq eq); [intros a b <-; auto|apply F2_refl]. Qed.
  Lemma rel_miter : forall {A B} (P : A -> B -> Prop) f g, (forall a b, P a b -> rel eq (f a) (g b)) -> forall l m, Forall2 P l m -> rel eq (miter f l) (miter g m).
  Proof. intros A B P f g H l m F. induction F as [|a b l m Hab F IH]; cbn [miter]; [apply rel_ret; auto|]. eapply rel_bind_eq; [apply H, Hab|]. intros. apply IH. Qed.
  Lemma rel_mrepeat : forall {A B} (Q : A -> B -> Prop) m n, rel Q m n -> forall k, rel (Forall2 Q) (mrepeat k m) (mrepeat k n).
  Proof. intros A B Q m n H. induction k as [|k IH]; cbn [mrepeat]; [apply rel_ret; auto|]. eapply rel_bind; [apply H|]. intros. eapply rel_bind; [apply IH|]. intros. apply rel_ret; auto. Qed.

  Lemma rel_randint : forall a b, rel eq (randint a b) (randint a b).
  Proof. intros a b. unfold randint. destruct (b <? a); [apply rel_raise|]. eapply rel_bind_eq; [apply rel_draw|]. intros. apply rel_ret; auto. Qed.
  Lemma rel_randrange : forall a b c, rel eq (randrange a b c) (randrange a b c).
  Proof. intros a b c. unfold randrange. destruct (_ =? _); [apply rel_raise|]. destruct (_ <=? _); [apply rel_raise|]. eapply rel_bind_eq; [apply rel_draw|]. intros. apply rel_ret; auto. Qed.
  Lemma rel_choice : forall {A} (l : list A), rel eq (choice l) (choice l).
  Proof. intros A [|a l]; cbn [choice]; [apply rel_raise|]. eapply rel_bind_eq; [apply rel_draw|]. intros. apply rel_ret; auto. Qed.
  Lemma rel_sample2 : forall {A B} (P : A -> B -> Prop) l m k, Forall2 P l m -> rel (Forall2 P) (sample l k) (sample m k).
  Proof.
    intros A B P l m k F. unfold sample. rewrite (F2_length _ _ _ F). destruct (_ || _); [apply rel_raise|]. revert l m F.
    induction (Z.to_nat k) as [|n IH]; intros l m F; cbn [sample_loop]; [apply rel_ret; auto|]. destruct F as [|d e l m H F]; [apply rel_raise|].
    cbn [length]. rewrite (F2_length _ _ _ F). eapply rel_bind_eq; [apply rel_draw|]. intros i. eapply rel_bind; [apply IH; apply F2_remove_at; auto|]. intros.
    apply rel_ret. constructor; auto. apply (F2_nth P (d :: l) (e :: m)); auto.
  Qed.
  Lemma rel_sample : forall {A} (l : list A) k, rel eq (sample l k) (sample l k).
  Proof. intros A l k. eapply rel_weaken; [apply F2_eq|]. apply rel_sample2, F2_refl. Qed.
  Lemma rel_random : rel eq random_ random_.
  Proof. eapply rel_bind_eq; [apply rel_draw|]. intros. apply rel_ret; auto. Qed.

  (** Parts that never look at a score. *)
  Notation refs := (Forall2 rr).
  Lemma rel_empty_copy : rel refs get_empty_copy get_empty_copy.
  Proof. eapply rel_bind_eq; [apply rel_seed|]. intros. apply rel_ret; constructor. Qed.
  Lemma irel_set_idx : forall n i j, irel i j -> irel (set_idx n i) (set_idx n j).
  Proof. intros n i j []; constructor; auto. Qed.
  Lemma irel_set_phen : forall n i j, irel i j -> irel (set_phenotype n i) (set_phenotype n j).
  Proof. intros n i j []; constructor; auto. Qed.
  Lemma irel_set_geno : forall n i j, irel i j -> irel (set_genotype n i) (set_genotype n j).
  Proof. intros n i j []; constructor; auto. Qed.
  Lemma irel_set_rank : forall n i j, irel i j -> irel (set_rank n i) (set_rank n j).
  Proof. intros n i j []; constructor; auto. Qed.
  Lemma rel_reset_idx : forall l m, refs l m -> rel eq (reset_idx_individ l) (reset_idx_individ m).
  Proof.
    intros l m F. unfold reset_idx_individ. generalize 0. induction F as [|r r' l m H F IH]; intros z; cbn [reset_idx_loop]; [apply rel_ret; auto|].
    eapply rel_bind_eq; [apply rel_modify; [exact H|]; intros; apply irel_set_idx; auto|]. intros. apply IH.
  Qed.
  Lemma rel_get_phenotype : forall g l m, refs l m -> rel eq (get_phenotype g l) (get_phenotype g m).
  Proof.
    intros g. apply rel_miter. intros r r' H. unfold get_phenotype1. eapply rel_bind; [apply rel_get, H|]. intros i j []. rewrite ir_phen0, ir_geno0.
    destruct (phenotype j) as [[ph|]|]; [apply rel_ret; auto| |apply rel_raise]. destruct g; try apply rel_raise.
    eapply rel_bind_eq; [apply rel_lift|]. intros. apply rel_modify; auto. intros. apply irel_set_phen; auto.
  Qed.
  Lemma rel_swap : forall l m, refs l m -> rel eq (swap l) (swap m).
  Proof.
    apply rel_miter. intros r r' H. unfold swap1. eapply rel_bind; [apply rel_get, H|]. intros i j []. rewrite ir_phen0, ir_geno0.
    destruct (phenotype j) as [[ph|]|]; try apply rel_raise. apply rel_modify; auto. intros i' j' K. apply irel_set_phen, irel_set_geno; auto.
  Qed.
  Lemma rel_genotypes : forall l m, refs l m -> rel eq (genotypes l) (genotypes m).
  Proof. apply rel_mmap_eq. intros r r' H. eapply rel_bind; [apply rel_get, H|]. intros i j []. apply rel_ret; auto. Qed.
  Lemma rel_is_duplicate : forall l m, refs l m -> rel eq (is_duplicate l) (is_duplicate m).
  Proof. intros l m F. eapply rel_bind_eq; [apply rel_genotypes, F|]. intros. apply rel_ret; auto. Qed.
  Record prel (p q : pop) : Prop := mkPrel {
    pr_mem : refs (members p) (members q); pr_sorted : is_sorted p = is_sorted q; pr_num : num_individ p = num_individ q;
    pr_spec : gspec_of p = gspec_of q; pr_input : input_population p = input_population q }.
  Lemma rel_fill : forall p, rel prel (fill p) (fill p).
  Proof.
    intros p. unfold fill. eapply rel_bind_eq; [apply rel_lift|]. intros g.
    assert (N : forall geno, irel (new_individ g geno) (new_individ g geno)) by (intros; constructor; auto; constructor).
    eapply rel_bind; [eapply rel_mmap with (P := eq) (Q := rr); [|apply F2_refl]; intros x y <-; eapply rel_bind_eq; [apply rel_lift|]; intros; apply rel_alloc; auto|]. intros inp inp' Fi.
    eapply rel_bind; [apply rel_mrepeat with (Q := rr); eapply rel_bind_eq; [|intros; apply rel_alloc; auto]|].
    { destruct g as [gray gens bp|gens|a b k]; cbn [get_generated_individ].
      - eapply rel_bind_eq; [|intros; apply rel_ret; auto]. induction (combine _ _) as [|[rnp nb] ps IH]; cbn [gen_binary_loop]; [apply rel_ret; auto|].
        eapply rel_bind_eq; [apply rel_randint|]. intros. eapply rel_bind_eq; [apply rel_lift|]. intros. eapply rel_bind_eq; [apply IH|]. intros. apply rel_ret; auto.
      - apply rel_mmap_self. intros [a b st|l|]; cbn [gen_cat1]; [eapply rel_bind_eq; [apply rel_randrange|]; intros; apply rel_ret; auto|apply rel_choice|apply rel_raise].
      - eapply rel_bind_eq; [apply rel_sample|]. intros. apply rel_ret; auto. }
    intros gn gn' Fg. assert (F : refs (inp ++ gn) (inp' ++ gn')) by (apply F2_app; auto).
    eapply rel_bind_eq; [destruct (is_phenotype g); [apply rel_get_phenotype, F|apply rel_ret; auto]|]. intros.
    eapply rel_bind_eq; [apply rel_reset_idx, F|]. intros. apply rel_ret. constructor; auto.
  Qed.

  (** Crossover and mutation. *)
  Lemma rel_crossover : forall k n p1 p2, rel eq (crossover k n p1 p2) (crossover k n p1 p2).
  Proof.
    assert (Sg : forall n, rel eq (get_idx_segment n) (get_idx_segment n)).
    { intros n. eapply rel_bind_eq; [apply rel_sample|]. intros [|a [|b [|]]]; try apply rel_raise. apply rel_ret; auto. }
    intros k n p1 p2. destruct k; cbn [crossover].
    - eapply rel_bind_eq; [apply rel_randint|]. intros. apply rel_ret; auto.
    - unfold two_point. eapply rel_bind_eq; [apply Sg|]. intros [a b]. apply rel_ret; auto.
    - unfold uniform. eapply rel_bind_eq; [apply rel_mmap_self; intros i|]; [|intros; apply rel_ret; auto].
      unfold uniform_gene. eapply rel_bind_eq; [apply rel_randint|]. intros c. apply rel_lift_opt.
    - unfold order. eapply rel_bind_eq; [apply Sg|]. intros [a b]. apply rel_ret; auto.
  Qed.
  Lemma irel_empty_like : forall i j, irel i j -> irel (empty_like i) (empty_like j).
  Proof. intros i j []. constructor; cbn; auto; try constructor; [rewrite ir_phen0; auto|rewrite ir_rank0; auto]. Qed.

  (** Values of GaData. *)
  Inductive brel : best_sol -> best_sol -> Prop :=
  | br_none : brel BNone BNone
  | br_some : forall i j g, irel i j -> brel (BSingle i g) (BSingle j g)
  | br_pareto : forall l m g, Forall2 irel l m -> brel (BPareto l g) (BPareto m g).
  Record grel (a b : gadata) : Prop := mkGrel {
    gr_multi : is_multi a = is_multi b /\ (is_multi b = true -> mult); gr_gen : idx_generation a = idx_generation b; gr_ni : no_improve a = no_improve b;
    gr_pop : prel (population a) (population b); gr_par : refs (parents a) (parents b); gr_chi : refs (children a) (children b);
    gr_best : Forall2 (vrel R) (hist_best a) (hist_best b); gr_med : Forall2 (vrel R) (hist_mediocre a) (hist_mediocre b);
    gr_worst : Forall2 (vrel R) (hist_worst a) (hist_worst b); gr_par_hist : Forall2 refs (hist_pareto a) (hist_pareto b); gr_sol : brel (best_solution a) (best_solution b);
    gr_num : num_generations a = num_generations b; gr_stop : early_stop a = early_stop b; gr_cp : children_percent a = children_percent b }.
  Ltac gr := match goal with H : grel ?a ?b |- _ => destruct H as [Gm Gg Gn Gp Gpa Gc Gb Gd Gw Gph Gs Gnu Ge Gcp] end;
    match goal with H : prel ?a ?b |- _ => pose proof H as Gp0; destruct Gp0 as [Pm Ps Pn Pg Pi] end.
  Lemma rel_crossover_execute : forall k a b, grel a b -> rel grel (crossover_execute k a) (crossover_execute k b).
  Proof.
    intros k a b G. gr. unfold crossover_execute. destruct Pm as [|first first' rest rest' Hf Pm]; [apply rel_raise|].
    eapply rel_bind; [apply rel_get, Hf|]. intros i j I. rewrite (ir_geno _ _ I). eapply rel_bind; [apply rel_empty_copy|]. intros _ _ _.
    eapply rel_bind with (m := cross_pairs _ _ _ _) (Q := refs); [|intros; apply rel_ret; constructor; auto].
    assert (X : forall n l m, refs l m -> (length l <= n)%nat -> rel refs (cross_pairs k (Z.of_nat (length (genotype j))) first l) (cross_pairs k (Z.of_nat (length (genotype j))) first' m)).
    { induction n as [|n IH]; intros l m F L; destruct F as [|x x' l m Hx F]; cbn [cross_pairs length] in *; try (apply rel_ret; constructor); try lia.
      destruct F as [|y y' l m Hy F]; [apply rel_raise|]. cbn [cross_pairs length] in *.
      eapply rel_bind; [apply rel_get, Hx|]. intros ia ja Ia. eapply rel_bind; [apply rel_get, Hy|]. intros ib jb Ib. rewrite (ir_geno _ _ Ia), (ir_geno _ _ Ib).
      eapply rel_bind with (m := get_child _ _ _ _ _) (Q := rr); [|intros; eapply rel_bind; [apply IH; [exact F|lia]|intros; apply rel_ret; auto]].
      unfold get_child. eapply rel_bind; [apply rel_get, Hf|]. intros i0 j0 I0. eapply rel_bind_eq; [apply rel_crossover|]. intros gs.
      eapply rel_bind_eq; [apply rel_randint|]. intros. apply rel_alloc, irel_set_geno, irel_empty_like; auto. }
    apply (X (length (parents a))); auto.
  Qed.
  Lemma rel_determines : forall level, rel eq (determines_mutation level) (determines_mutation level).
  Proof. intros. eapply rel_bind_eq; [apply rel_randint|]. intros. apply rel_ret; auto. Qed.
  Lemma rel_mutate_child : forall f r r', rr r r' -> (forall g, rel eq (f g) (f g)) -> rel eq (mutate_child f r) (mutate_child f r').
  Proof.
    intros f r r' Hr H. unfold mutate_child. eapply rel_bind; [apply rel_get, Hr|]. intros i j I. rewrite (ir_geno _ _ I). eapply rel_bind_eq; [apply H|]. intros.
    apply rel_modify; auto. intros. apply irel_set_geno; auto.
  Qed.
  Lemma rel_two_idx : forall n, rel eq (two_idx n) (two_idx n).
  Proof. intros n. eapply rel_bind_eq; [apply rel_sample|]. intros [|x [|y [|]]]; try apply rel_raise. apply rel_ret; auto. Qed.
  Lemma rel_combi : forall k g, rel eq (combi_mutation k g) (combi_mutation k g).
  Proof.
    intros k g. destruct k; cbn [combi_mutation].
    - eapply rel_bind_eq; [apply rel_two_idx|]. intros. apply rel_ret; auto.
    - eapply rel_bind_eq; [apply rel_two_idx|]. intros. apply rel_ret; auto.
    - eapply rel_bind_eq; [apply rel_two_idx|]. intros [x y]. destruct (if y <? x then _ else _). apply rel_ret; auto.
    - unfold shift. eapply rel_bind_eq; [apply rel_randint|]. intros. eapply rel_bind_eq; [apply rel_randint|]. intros.
      eapply rel_bind_eq; [apply rel_choice|]. intros. apply rel_ret; auto.
  Qed.
  Lemma rel_cat : forall level g pools, rel eq (cat_mutation level pools g) (cat_mutation level pools g).
  Proof.
    intros level. induction g as [|x g IH]; intros pools; cbn [cat_mutation]; [apply rel_ret; auto|]. destruct pools as [|p ps].
    - eapply rel_bind_eq; [apply rel_determines|]. intros [|]; [apply rel_raise|]. eapply rel_bind_eq; [apply IH|]. intros. apply rel_ret; auto.
    - eapply rel_bind_eq; [|intros; eapply rel_bind_eq; [apply IH|]; intros; apply rel_ret; auto].
      unfold cat_gene. eapply rel_bind_eq; [apply rel_determines|]. intros [|]; [|apply rel_ret; auto].
      destruct p as [a b stp|l|]; [|destruct (1 <? _); [apply rel_choice|apply rel_ret; auto]|apply rel_raise].
      destruct (stp =? 0); [apply rel_raise|]. cbv zeta. destruct (1 <? _); [apply rel_choice|apply rel_ret; auto].
  Qed.
  Lemma rel_mutation_execute : forall m a b, grel a b -> rel eq (mutation_execute m a) (mutation_execute m b).
  Proof.
    intros m a b G. gr. unfold mutation_execute. rewrite Pg. destruct m as [k level|l|level].
    - eapply rel_bind_eq; [eapply rel_miter; [intros r r' Hr|exact Gc]|intros; apply rel_ret; auto]. unfold combi_child. eapply rel_bind_eq; [apply rel_determines|].
      intros [|]; [apply rel_mutate_child; auto; intros; apply rel_combi|apply rel_ret; auto].
    - destruct (gspec_of (population b)) as [gray gens bp| |]; try apply rel_raise. eapply rel_bind_eq; [apply rel_lift|]. intros level.
      eapply rel_bind_eq; [eapply rel_miter; [intros r r' Hr; apply rel_mutate_child; [exact Hr|]; intros g|exact Gc]|intros; apply rel_ret; auto]. apply rel_mmap_self. intros x.
      eapply rel_bind_eq; [apply rel_determines|]. intros. apply rel_ret; auto.
    - destruct (gspec_of (population b)) as [| |];
      (eapply rel_bind_eq; [eapply rel_miter; [intros r r' Hr; apply rel_mutate_child; [exact Hr|]; intros g; apply rel_cat|exact Gc]|intros; apply rel_ret; auto]).
  Qed.

  (** Comparisons of scores. *)
  Lemma lrel_lex : forall k a b x y, lrel R k a x -> lrel R k b y -> lex_ltb a b = lex_ltb x y.
  Proof.
    intros k a. revert k. induction a as [|p a IH]; intros k b [|q x] y; cbn [lrel]; try contradiction.
    - intros _. destruct b, y; cbn; auto; contradiction.
    - intros [Hp Ha]. destruct b as [|p' b], y as [|q' y]; cbn [lrel]; try contradiction; auto. intros [Hp' Hb]. cbn [lex_ltb].
      rewrite (R_eqb _ _ _ _ _ Hp Hp'), (R_lt _ _ _ _ _ Hp Hp'), (IH _ _ _ _ Ha Hb). reflexivity.
  Qed.
  Lemma vrel_ltb : forall v w x y, vrel R v x -> vrel R w y -> sv_ltb v w = sv_ltb x y.
  Proof. intros v w x y [|a b H|l m H] [|c d K|l' m' K]; cbn; auto; f_equal; [eapply R_lt; eauto|eapply lrel_lex; eauto]. Qed.
  Lemma rel_m_ltb : forall v w x y, vrel R v x -> vrel R w y -> rel eq (m_ltb v w) (m_ltb x y).
  Proof. intros. unfold m_ltb. rewrite (vrel_ltb v w x y); auto. apply rel_lift_opt. Qed.
  (** Keys: a sorting key of the two executions, [K] relating the two. *)
  Definition krel (K : sval -> sval -> Prop) (a b : sval * nat) : Prop := K (fst a) (fst b) /\ rr (snd a) (snd b).
  Definition good_key (K : sval -> sval -> Prop) : Prop := (forall v w x y, K v x -> K w y -> sv_ltb v w = sv_ltb x y) /\
    (forall v w x y, K v x -> K w y -> same_kind v w = same_kind x y).
  Lemma good_score : good_key (vrel R).
  Proof. split; [apply vrel_ltb|]. intros v w x y [|a b H|l m H] [|c d K|l' m' K]; reflexivity. Qed.
  Lemma good_same : good_key eq.
  Proof. split; intros; subst; reflexivity. Qed.
  Lemma krel_insert : forall K a x l m, good_key K -> krel K a x -> Forall2 (krel K) l m -> Forall2 (krel K) (insert_by kv_lt a l) (insert_by kv_lt x m).
  Proof.
    intros K a x l m [Kl _] H F. induction F as [|b y l m Hb F IH]; cbn [insert_by]; [constructor; auto|].
    assert (E : kv_lt b a = kv_lt y x) by (unfold kv_lt, sv_lt; rewrite (Kl _ _ _ _ (proj1 Hb) (proj1 H)); reflexivity).
    rewrite E. destruct (kv_lt y x); constructor; auto.
  Qed.
  Lemma krel_sort : forall K l m, good_key K -> Forall2 (krel K) l m -> Forall2 (krel K) (sort_by kv_lt l) (sort_by kv_lt m).
  Proof. intros K l m G F. induction F; cbn [sort_by]; [constructor|]. apply krel_insert; auto. Qed.
  Lemma krel_snd : forall K l m, Forall2 (krel K) l m -> refs (map snd l) (map snd m).
  Proof. intros K l m F. induction F as [|a b l m [_ H] F IH]; cbn; constructor; auto. Qed.
  Lemma krel_comparable : forall K l m, good_key K -> Forall2 (krel K) l m -> comparable (map fst l) = comparable (map fst m).
  Proof.
    intros K l m [_ Sk]. assert (Fb : forall k k' l m, K k k' -> Forall2 (krel K) l m -> forallb (same_kind k) (map fst l) = forallb (same_kind k') (map fst m)).
    { intros k k' l0 m0 Hk F. induction F as [|a b l' m' [H _] F IH]; cbn; auto. rewrite (Sk _ _ _ _ Hk H), IH. reflexivity. }
    intros F. destruct F as [|a b l m H F]; auto. destruct F as [|a' b' l m H' F]; auto. cbn [map comparable].
    change (forallb (same_kind (fst a)) (map fst (a :: a' :: l)) = forallb (same_kind (fst b)) (map fst (b :: b' :: m))). apply Fb; [apply H|]. constructor; auto.
  Qed.
  Lemma rel_sort : forall key l m, refs l m -> rel refs (sort_by_dict key l) (sort_by_dict key m).
  Proof.
    intros key l m F. set (K := match key with KScore => vrel R | KRank => eq end).
    assert (G : good_key K) by (destruct key; [apply good_score|apply good_same]).
    unfold sort_by_dict. eapply rel_bind with (Q := Forall2 (krel K)).
    - eapply rel_mmap; [|exact F]. intros r r' Hr. unfold read_key. eapply rel_bind; [apply rel_get, Hr|]. intros i j I.
      eapply rel_bind with (Q := K); [|intros; apply rel_ret; split; auto]. apply rel_lift_opt_in. destruct key; cbn; [apply I|]. rewrite (ir_rank _ _ I). destruct (rank j); cbn; auto; reflexivity.
    - intros k k' Fk. rewrite (krel_comparable _ _ _ G Fk). destruct (comparable _); [|apply rel_raise]. apply rel_ret. apply (krel_snd K), krel_sort; auto.
  Qed.
  Lemma rel_pick : forall e l m i, refs l m -> rel rr (lift_opt e (py_nth l i)) (lift_opt e (py_nth m i)).
  Proof. intros e l m i F. apply rel_lift_opt_in. apply F2_py_nth, F. Qed.
  Lemma rel_pop_at : forall l m i, refs l m -> rel irel (pop_at l i) (pop_at m i).
  Proof. intros l m i F. eapply rel_bind; [apply rel_pick, F|]. intros. apply rel_get; auto. Qed.

  (** Tournament selection. *)
  Lemma lrel_nth : forall P l m k j, lrel P k l m -> match nth_error l j, nth_error m j with Some a, Some b => P (k + j)%nat a b | None, None => True | _, _ => False end.
  Proof.
    intros P. induction l as [|a l IH]; intros [|b m] k j H; cbn [lrel] in H; try contradiction; destruct j as [|j]; cbn [nth_error]; auto.
    - rewrite Nat.add_0_r. apply H.
    - specialize (IH m (S k) j (proj2 H)). replace (k + S j)%nat with (S k + j)%nat by lia. exact IH.
  Qed.
  Lemma lrel_length : forall P l m k, lrel P k l m -> length l = length m.
  Proof. intros P. induction l as [|a l IH]; intros [|b m] k H; cbn [lrel] in H; try contradiction; auto. cbn. f_equal. eapply IH, H. Qed.
  Lemma rel_sv_at : forall v w k, 0 <= k -> vrel R v w -> rel (R (Z.to_nat k)) (sv_at v k) (sv_at w k).
  Proof.
    intros v w k Hk [|x y H|l m H]; cbn [sv_at]; try apply rel_raise. apply rel_lift_opt_in. unfold py_nth. rewrite (lrel_length _ _ _ _ H).
    destruct (k <? 0) eqn:E; [apply Z.ltb_lt in E; lia|]. destruct (_ || _); auto. apply (lrel_nth R l m 0 (Z.to_nat k)). auto.
  Qed.
  Definition valid_idx (idx : option Z) : Prop := match idx with Some k => 0 <= k | None => True end.
  Lemma rel_better : forall idx c c' b b', valid_idx idx -> irel c c' -> irel b b' -> rel eq (better idx c b) (better idx c' b').
  Proof.
    intros [k|] c c' b b' V C B; cbn [better]; [|apply rel_m_ltb; [apply B|apply C]].
    eapply rel_bind; [apply rel_sv_at; [exact V|apply C]|]. intros x x' X. eapply rel_bind; [apply rel_sv_at; [exact V|apply B]|]. intros y y' Y.
    apply rel_ret. eapply R_lt; eauto.
  Qed.
  Lemma rel_get_best_loop : forall idx l m tr b b', valid_idx idx -> refs l m -> rr b b' -> rel rr (get_best_loop idx l tr b) (get_best_loop idx m tr b').
  Proof.
    intros idx l m tr b b' V F. revert b b'. induction tr as [|i tr IH]; intros b b' Hb; cbn [get_best_loop]; [apply rel_ret; auto|]. eapply rel_bind; [apply rel_pick, F|]. intros r r' Hr.
    eapply rel_bind; [apply rel_get, Hr|]. intros c c' C. eapply rel_bind; [apply rel_get, Hb|]. intros d d' D. eapply rel_bind_eq; [apply rel_better; auto|].
    intros [|]; apply IH; auto.
  Qed.
  Lemma rel_run_tournament : forall idx t l m, valid_idx idx -> refs l m -> rel rr (run_tournament idx t l) (run_tournament idx t m).
  Proof.
    intros idx t l m V F. unfold run_tournament. rewrite (F2_length _ _ _ F). eapply rel_bind_eq; [apply rel_sample|]. intros [|i tr]; [apply rel_raise|]. cbn [get_best].
    eapply rel_bind; [apply rel_pick, F|]. intros. apply rel_get_best_loop; auto.
  Qed.
  Lemma rel_second_parent : forall f idx t l m b b', valid_idx idx -> refs l m -> rr b b' -> rel rr (second_parent f idx t l b) (second_parent f idx t m b').
  Proof.
    induction f as [|f IH]; intros idx t l m b b' V F Hb; cbn [second_parent]; [apply rel_nofuel|]. eapply rel_bind; [apply rel_run_tournament; eauto|]. intros c c' C.
    eapply rel_bind; [apply rel_get, C|]. intros d d' D. eapply rel_bind; [apply rel_get, Hb|]. intros e e' E. rewrite (ir_idx _ _ D), (ir_idx _ _ E).
    destruct (opt_eqb _ _ _); [apply IH; auto|apply rel_ret; auto].
  Qed.
  Definition pairrel (p q : nat * nat) : Prop := rr (fst p) (fst q) /\ rr (snd p) (snd q).
  Lemma flatten_rel : forall l m, Forall2 pairrel l m -> refs (flatten_pairs l) (flatten_pairs m).
  Proof. intros l m F. induction F as [|a b l m [H1 H2] F IH]; cbn; auto. Qed.
  Lemma rel_total : forall m a b, grel a b -> rel eq (get_total_num_parents m a) (get_total_num_parents m b).
  Proof.
    intros m a b G. gr. unfold get_total_num_parents. rewrite Pn, Gcp. cbv zeta. eapply rel_bind_eq; [destruct m; [apply rel_lift|apply rel_ret; auto]|]. intros. apply rel_lift_opt.
  Qed.
  Lemma rel_base : forall a b, grel a b -> rel grel (base_execute a) (base_execute b).
  Proof.
    intros a b G. gr. unfold base_execute. eapply rel_bind_eq; [apply rel_reset_idx, Pm|]. intros. eapply rel_bind; [apply rel_empty_copy|]. intros. apply rel_ret. constructor; auto.
  Qed.
  Lemma rel_tournament : forall fuel m idx t a b, valid_idx idx -> grel a b -> rel grel (tournament fuel m idx t a) (tournament fuel m idx t b).
  Proof.
    intros fuel m idx t a b V G. unfold tournament. eapply rel_bind_eq; [apply rel_total, G|]. intros n. gr.
    eapply rel_bind; [apply rel_mrepeat with (Q := pairrel)|intros ps qs F; apply rel_ret; constructor; auto; cbn; apply F2_app; auto; apply flatten_rel; auto].
    unfold tournament_pair. eapply rel_bind; [apply rel_run_tournament; eauto|]. intros p1 q1 H1. eapply rel_bind; [apply rel_second_parent; eauto|]. intros p2 q2 H2.
    eapply rel_bind; [apply rel_get, H1|]. intros. eapply rel_bind; [apply rel_get, H2|]. intros. eapply rel_bind; [apply rel_alloc; eauto|]. intros.
    eapply rel_bind; [apply rel_alloc; eauto|]. intros. apply rel_ret; split; auto.
  Qed.
  Lemma rel_check : forall t n, rel eq (check_tournament_size t n) (check_tournament_size t n).
  Proof. intros. unfold check_tournament_size. destruct (_ || _); [apply rel_raise|apply rel_ret; auto]. Qed.

  (** The proportional selections use the values of the scores: they must be the same. *)
  Definition same_scores : Prop := forall k a b, R k a b -> a = b.
  Lemma lrel_same : forall (P : nat -> num -> num -> Prop) l m k, (forall k a b, P k a b -> a = b) -> lrel P k l m -> l = m.
  Proof. intros P. induction l as [|a l IH]; intros [|b m] k S H; cbn [lrel] in H; try contradiction; auto. f_equal; [eapply S, H|eapply IH; [auto|apply H]]. Qed.
  Lemma vrel_same : forall v w, same_scores -> vrel R v w -> v = w.
  Proof. intros v w S [|x y H|l m H]; f_equal; [eapply S; eauto|eapply lrel_same; eauto]. Qed.
  Lemma rel_weight : forall k idx r r', same_scores -> rr r r' -> rel eq (weight k idx r) (weight k idx r').
  Proof.
    intros k idx r r' SS Hr. unfold weight. eapply rel_bind; [apply rel_get, Hr|]. intros i j I.
    assert (E : key_of k i = key_of k j) by (destruct k; cbn; [f_equal; apply vrel_same; [auto|apply I]|apply I]). rewrite E.
    eapply rel_bind_eq; [apply rel_lift_opt|]. intros v. destruct idx; [|destruct v; try apply rel_raise; apply rel_ret; auto].
    destruct v; cbn [sv_at]; try apply rel_raise. apply rel_lift_opt.
  Qed.
  Lemma rel_add_probabilities : forall k idx l m, same_scores -> refs l m -> rel eq (add_probabilities k idx l) (add_probabilities k idx m).
  Proof. intros k idx l m SS F. eapply rel_bind_eq; [eapply rel_mmap_eq; [|exact F]; intros; apply rel_weight; auto|]. intros. apply rel_lift. Qed.
  Lemma rel_get_index : forall scores, rel eq (get_index scores) (get_index scores).
  Proof. intros. eapply rel_bind_eq; [apply rel_random|]. intros. apply rel_lift. Qed.
  Lemma rel_balanced_selection : forall fuel m scores a b, grel a b -> rel grel (balanced_selection fuel m scores a) (balanced_selection fuel m scores b).
  Proof.
    intros fuel m scores a b G. unfold balanced_selection. eapply rel_bind_eq; [apply rel_total, G|]. intros n. gr.
    eapply rel_bind; [apply rel_mrepeat with (Q := pairrel)|intros ps qs F; apply rel_ret; constructor; auto; cbn; apply F2_app; auto; apply flatten_rel; auto].
    unfold balanced_pair. eapply rel_bind_eq; [apply rel_get_index|]. intros i1. eapply rel_bind_eq.
    { induction fuel as [|f IH]; cbn [second_index]; [apply rel_nofuel|]. eapply rel_bind_eq; [apply rel_get_index|]. intros i. destruct (i =? i1); [apply IH|apply rel_ret; auto]. }
    intros i2. eapply rel_bind; [apply rel_pop_at, Pm|]. intros. eapply rel_bind; [apply rel_alloc; eauto|]. intros. eapply rel_bind; [apply rel_pop_at, Pm|]. intros.
    eapply rel_bind; [apply rel_alloc; eauto|]. intros. apply rel_ret; split; auto.
  Qed.
  Lemma rel_put_rank : forall idx l m i v, refs l m -> rel eq (put_rank idx l i v) (put_rank idx m i v).
  Proof.
    intros idx l m i v F. unfold put_rank. eapply rel_bind; [apply rel_pick, F|]. intros r r' Hr. destruct idx as [j|]; [|apply rel_modify; auto; intros; apply irel_set_rank; auto].
    eapply rel_bind; [apply rel_get, Hr|]. intros x y I. rewrite (ir_rank _ _ I). destruct (rank y) as [[|z|lst]|]; try apply rel_raise.
    destruct (_ && _); [|apply rel_raise]. apply rel_modify; auto. intros; apply irel_set_rank; auto.
  Qed.
  Lemma rel_selection_ranks : forall idx l m, same_scores -> refs l m -> rel eq (assign_selection_ranks idx l) (assign_selection_ranks idx m).
  Proof.
    intros idx l m SS F. unfold assign_selection_ranks. rewrite (F2_length _ _ _ F). eapply rel_bind_eq; [|intros; apply rel_ret; auto].
    apply rel_mfold; auto. intros p q i _ <-. destruct p as [prev count]. unfold rank_step. cbv zeta. rewrite (F2_length _ _ _ F).
    assert (G : forall a b c, rel eq (put_group idx l a b c) (put_group idx m a b c)).
    { intros a b c. unfold put_group. eapply rel_miter with (P := eq); [|apply F2_refl]. intros x y <-. apply rel_put_rank; auto. }
    eapply rel_bind_eq; [apply rel_put_rank; auto|]. intros _. eapply rel_bind_eq.
    { unfold rank_score. eapply rel_bind; [apply rel_pop_at, F|]. intros x y I. rewrite (vrel_same _ _ SS (ir_score _ _ I)). destruct idx; [|apply rel_ret; auto].
      eapply rel_bind_eq; [|intros; apply rel_ret; auto]. destruct (score y); cbn [sv_at]; try apply rel_raise. apply rel_lift_opt. }
    intros sc. destruct (sv_eqb sc prev); [eapply rel_bind_eq; [|intros; apply rel_ret; auto]; destruct (_ =? _); [apply G|apply rel_ret; auto]|].
    destruct (1 <? count); [eapply rel_bind_eq; [apply G|]; intros; apply rel_ret; auto|apply rel_ret; auto].
  Qed.
  Lemma rel_balanced_pass : forall fuel ranked m idx a b, same_scores -> grel a b -> rel grel (balanced_pass fuel ranked m idx a) (balanced_pass fuel ranked m idx b).
  Proof.
    intros fuel ranked m idx a b SS G. unfold balanced_pass. eapply rel_bind; [apply rel_base, G|]. clear G. intros a1 b1 G. cbv zeta. pose proof G as G0. gr.
    eapply rel_bind_eq; [destruct ranked; [apply rel_selection_ranks; auto|apply rel_ret; auto]|]. intros _.
    eapply rel_bind_eq; [apply rel_add_probabilities; auto|]. intros. apply rel_balanced_selection; auto.
  Qed.
  Definition by_order (sel : selection) : Prop := match sel with SelTournament _ | SelVegaTournament _ _ => True | _ => False end.
  Lemma rel_selection_execute : forall fuel sel a b, by_order sel \/ same_scores -> grel a b -> rel grel (selection_execute fuel sel a) (selection_execute fuel sel b).
  Proof.
    intros fuel sel a b C G. assert (Pn : num_individ (population a) = num_individ (population b)) by (apply G). assert (Pm : refs (members (population a)) (members (population b))) by (apply G).
    destruct sel as [t| | |m t|m|m]; cbn [selection_execute by_order] in *; match type of C with False \/ _ => destruct C as [[]|SS] | _ => clear C end; rewrite ?Pn.
    - eapply rel_bind_eq; [apply rel_check|]. intros _. eapply rel_bind; [apply rel_base, G|]. intros. apply rel_tournament; [exact I|auto].
    - apply rel_balanced_pass; auto.
    - apply rel_balanced_pass; auto.
    - eapply rel_bind_eq; [apply rel_check|]. intros _. eapply rel_bind; [apply rel_base, G|]. intros a1 b1 G1. apply rel_mfold; auto. intros x y i Hi Gx.
      apply rel_tournament; [apply in_zrange in Hi; cbn; lia|auto].
    - apply rel_mfold; auto. intros x y i Hi Gx. apply rel_balanced_pass; auto.
    - eapply rel_bind_eq; [eapply rel_miter; [|exact Pm]; intros r r' Hr; apply rel_modify; auto; intros; apply irel_set_rank; auto|]. intros _.
      apply rel_mfold; auto. intros x y i Hi Gx. apply rel_balanced_pass; auto.
  Qed.

  (** The next generation. *)
  Lemma rel_rank1_prefix : forall l m, refs l m -> rel refs (rank1_prefix l) (rank1_prefix m).
  Proof.
    intros l m F. induction F as [|r r' l m Hr F IH]; cbn [rank1_prefix]; [apply rel_ret; auto|]. eapply rel_bind_eq.
    { unfold rank_is_1. eapply rel_bind; [apply rel_get, Hr|]. intros i j I. rewrite (ir_rank _ _ I). eapply rel_bind_eq; [apply rel_lift_opt|]. intros. apply rel_ret; auto. }
    intros [|]; [|apply rel_ret; auto]. eapply rel_bind; [apply IH|]. intros. apply rel_ret; auto.
  Qed.
  Lemma rel_add_parents : forall ng l m cs ds n, refs l m -> refs cs ds -> rel refs (add_parents ng l cs n) (add_parents ng m ds n).
  Proof.
    intros ng l m cs ds n F Fc. unfold add_parents. cbv zeta. rewrite (F2_length _ _ _ Fc). eapply rel_bind with (Q := refs); [|intros; apply rel_ret; apply F2_app; auto].
    destruct (ng_transfer ng).
    - destruct (ng_multi ng); [apply rel_rank1_prefix; auto|]. unfold add_best.
      assert (X : forall f lc z e e', refs e e' -> rel refs (add_best_loop f l n (Z.of_nat (length ds)) lc z e) (add_best_loop f m n (Z.of_nat (length ds)) lc z e')); [|apply X, F2_slice_from, F].
      induction f as [|f IH]; intros lc z e e' Fe; cbn [add_best_loop]; [apply rel_nofuel|].
      eapply rel_bind_eq; [apply rel_genotypes, Fe|]. intros gs. destruct (has_dup gs); cbn [negb]; [|apply rel_ret; auto]. cbv zeta.
      assert (Fd : refs (delete_duplicate e gs) (delete_duplicate e' gs)).
      { unfold delete_duplicate. rewrite (F2_length _ _ _ Fe). destruct (first_duplicate _ _); auto. apply F2_remove_at; auto. }
      rewrite (F2_length _ _ _ Fd). destruct (_ <? 0); [eapply rel_bind; [apply rel_sample2, F|]; intros; apply rel_ret; apply F2_app; auto|].
      eapply rel_bind; [apply rel_pick, F|]. intros r r' Hr. destruct (_ <=? _); [apply rel_ret; auto|apply IH; auto].
    - unfold add_random. eapply rel_bind; [apply rel_sample2, F2_slice_to, F|]. intros e e' Fe.
      eapply rel_bind with (Q := refs); [|intros; eapply rel_bind; [apply rel_pick, F|]; intros; apply rel_ret; apply F2_app; auto].
      assert (X : forall f lc e e', refs e e' -> rel refs (add_random_loop f l n (Z.of_nat (length ds)) lc e) (add_random_loop f m n (Z.of_nat (length ds)) lc e')); [|apply X, Fe].
      clear e e' Fe. induction f as [|f IH]; intros lc e e' Fe; cbn [add_random_loop]; [apply rel_nofuel|].
      eapply rel_bind_eq; [apply rel_is_duplicate, Fe|]. intros [|]; cbn [negb]; [|apply rel_ret; auto]. eapply rel_bind; [apply rel_sample2, F2_slice_to, F|]. intros e1 e1' Fe1. cbv zeta.
      destruct (_ <=? _); [apply rel_ret; auto|apply IH; auto].
  Qed.
  Lemma rel_newgen_execute : forall ng a b, grel a b -> rel grel (newgen_execute ng a) (newgen_execute ng b).
  Proof.
    intros ng a b G. gr. unfold newgen_execute. cbv zeta. rewrite Ps, Pg, Pn, (F2_length _ _ _ Gc).
    assert (E : forall l m, refs l m -> rel grel (ret (set_children l (set_population (set_sorted false (set_members l (population a))) a)))
      (ret (set_children m (set_population (set_sorted false (set_members m (population b))) b)))).
    { intros l m F. apply rel_ret. constructor; cbn; auto. constructor; cbn; auto. }
    destruct (ng_multi ng).
    - eapply rel_bind_eq; [destruct (is_phenotype (gspec_of (population b))); [apply rel_get_phenotype, Pm|apply rel_ret; auto]|]. intros _.
      eapply rel_bind; [apply rel_add_parents; [exact Pm|exact Gc]|]. intros. apply E; auto.
    - eapply rel_bind with (Q := refs); [destruct (is_sorted (population b)); [apply rel_ret; auto|apply rel_sort, Pm]|].
      intros l m F. eapply rel_bind with (Q := refs); [|intros; apply E; auto].
      destruct (0 <? _); [apply rel_add_parents; auto|]. eapply rel_bind; [apply rel_pick, F|]. intros. apply rel_ret; auto. apply F2_app; auto.
  Qed.

  (** update *)
  Lemma rel_update_single : forall a b, grel a b -> rel grel (update_single a) (update_single b).
  Proof.
    intros a b G. gr. unfold update_single. rewrite Ps. cbv zeta.
    eapply rel_bind with (Q := refs); [destruct (is_sorted (population b)); [apply rel_ret; auto|apply rel_sort, Pm]|]. intros l m F. rewrite (F2_length _ _ _ F).
    eapply rel_bind; [apply rel_pop_at, F|]. intros x x' X. eapply rel_bind; [apply rel_pop_at, F|]. intros y y' Y. eapply rel_bind; [apply rel_pop_at, F|]. intros z z' Zr.
    eapply rel_bind with (Q := fun p q => brel (fst p) (fst q) /\ snd p = snd q).
    - destruct Gs as [|i j g I|]; [apply rel_ret; cbn; rewrite Gg; split; [constructor|]; auto| |apply rel_raise]. eapply rel_bind_eq; [apply rel_m_ltb; [apply I|apply X]|].
      intros [|]; apply rel_ret; cbn; rewrite ?Gg, ?Gn; split; auto; constructor; auto.
    - intros [p1 p2] [q1 q2] [P1 P2]. apply rel_ret. cbn in *. constructor; cbn; auto; try congruence; try (apply F2_app; auto; constructor; auto; first [apply X|apply Y|apply Zr]).
      constructor; cbn; auto.
  Qed.
  Lemma sv_eqb_rel : forall (P : nat -> num -> num -> Prop) v w x y, (forall k a b x y, P k a x -> P k b y -> neqb a b = neqb x y) -> vrel P v x -> vrel P w y -> sv_eqb v w = sv_eqb x y.
  Proof.
    intros P v w x y E H K. assert (L : forall l k m l' m', lrel P k l l' -> lrel P k m m' -> lst_eqb l m = lst_eqb l' m').
    { induction l as [|p l IH]; intros k m [|p' l'] m' A B; cbn [lrel] in A; try contradiction; destruct m as [|q m], m' as [|q' m']; cbn [lrel] in B; try contradiction; auto.
      cbn [lst_eqb]. rewrite (E _ _ _ _ _ (proj1 A) (proj1 B)), (IH _ _ _ _ (proj2 A) (proj2 B)). reflexivity. }
    destruct H, K; cbn; auto; [eapply E; eauto|eapply L; eauto].
  Qed.
  Lemma ind_eqb_rel : forall i j i' j', mult -> irel i i' -> irel j j' -> ind_eqb i j = ind_eqb i' j'.
  Proof.
    intros i j i' j' MU [A1 A2 A3 A4 A5 A6 A7] [B1 B2 B3 B4 B5 B6 B7]. unfold ind_eqb.
    rewrite A1, A2, A5, A6, A7, B1, B2, B5, B6, B7, (sv_eqb_rel R _ _ _ _ R_eqb A3 B3), (O_eqb MU _ _ _ _ A4 B4). reflexivity.
  Qed.
  Lemma inds_eqb_rel : mult -> forall l l', Forall2 irel l l' -> forall m m', Forall2 irel m m' -> inds_eqb l m = inds_eqb l' m'.
  Proof. intros MU. induction 1 as [|i i' l l' I F IH]; destruct 1 as [|j j' m m' J F']; cbn [inds_eqb]; auto. rewrite (ind_eqb_rel _ _ _ _ MU I J), (IH _ _ F'). reflexivity. Qed.
  Lemma rel_update_multi : forall a b, mult -> grel a b -> rel grel (update_multi a) (update_multi b).
  Proof.
    intros a b MU G. gr. unfold update_multi. rewrite Ps. cbv zeta.
    eapply rel_bind with (Q := refs); [destruct (is_sorted (population b)); [apply rel_ret; auto|apply rel_sort, Pm]|]. intros l m F.
    eapply rel_bind; [apply rel_rank1_prefix, F|]. intros p q Fp. eapply rel_bind; [eapply rel_mmap; [intros; apply rel_get; eassumption|exact Fp]|]. intros is js Fi.
    eapply rel_bind with (Q := fun x y => Forall2 irel (fst x) (fst y) /\ snd x = snd y).
    - destruct Gs as [|i j g I|x y g I]; [apply rel_ret; cbn; auto|apply rel_raise|apply rel_ret; cbn; auto].
    - intros [old g] [old' g'] [Fo E]. cbn [fst snd] in *. subst g'. rewrite (inds_eqb_rel MU _ _ Fo _ _ Fi). apply rel_ret. rewrite Gg, Gn.
      constructor; cbn; auto; [|apply F2_app; auto|destruct (inds_eqb old' js); constructor; auto]. constructor; cbn; auto.
  Qed.
  Lemma rel_update : forall a b, grel a b -> rel grel (update a) (update b).
  Proof. intros a b G. unfold update. destruct (gr_multi _ _ G) as [Em MU]. rewrite Em. destruct (is_multi b); [apply rel_update_multi; auto|apply rel_update_single; auto]. Qed.
  Lemma rel_print : forall a b, grel a b -> rel eq (print_best_solution a) (print_best_solution b).
  Proof.
    intros a b G. gr. unfold print_best_solution. destruct Gs as [|i j g I|x y [g|] I]; try apply rel_raise; [apply rel_ret; auto|].
    eapply rel_miter; [|exact I]. intros i j []. rewrite ir_phen0. destruct (phenotype j); [apply rel_ret; auto|apply rel_raise].
  Qed.

  (** Evaluation with two objective functions. *)
  Definition agree (f1 f2 : fitness) : Prop := forall j genes gen b1 b2 i1 i2, irel i1 i2 -> score i1 = SVNone -> brel b1 b2 ->
    match called f1 (j + length h1) genes, called f2 (j + length h2) genes with
    | inl e, inl e' => e = e'
    | inr v, inr w => erel irel (assess f1 gen b1 v i1) (assess f2 gen b2 w i2)
    | _, _ => False
    end.
  (** The one-argument call used for ranking. *)
  Definition called1 (o : objfun) (k : nat) (genes : list gv) : exn + oval :=
    match o with Obj1 f | Obj12 f _ => f k genes | Obj2 _ => inl TypeError end.
  Definition agree1 (o1 o2 : objfun) : Prop := forall j genes,
    match called1 o1 (j + length h1) genes, called1 o2 (j + length h2) genes with
    | inl e, inl e' => e = e'
    | inr (OTuple l), inr (OTuple m) => O (SVL l) (SVL m)
    | inr (OScalar _), inr (OScalar _) => True
    | _, _ => False
    end.
  Lemma sim_log_length : forall s t, sim s t -> exists j, length (log s) = (j + length h1)%nat /\ length (log t) = (j + length h2)%nat.
  Proof.
    intros s t S. destruct (sm_log _ _ S) as (c & d & E1 & E2 & E3). exists (length c). rewrite E1, E2, !app_length. split; auto. f_equal.
    rewrite <- (map_length fst c), <- (map_length fst d), E3. reflexivity.
  Qed.
  Lemma sim_call : forall s t p v w, sim s t -> sim (set_log ((p, v) :: log s) s) (set_log ((p, w) :: log t) t).
  Proof.
    intros s t p v w S. destruct S as [Sh Sn St Se Ss Sp (c & d & E1 & E2 & E3)]. constructor; cbn; auto. exists ((p, v) :: c), ((p, w) :: d).
    rewrite E1, E2. cbn. rewrite E3. auto.
  Qed.
  Lemma rel_call_list : forall o1 o2 p, agree1 o1 o2 -> rel (fun l m => O (SVL l) (SVL m)) (call_list o1 p) (call_list o2 p).
  Proof.
    intros o1 o2 p A s t S. destruct (sim_log_length _ _ S) as (j & L1 & L2). specialize (A j p). unfold call_list, bind.
    assert (C : forall o s, call1 o p s = match called1 o (length (log s)) p with inl e => Err e | inr v => Ok v (set_log ((p, v) :: log s) s) end) by (intros [f|f|f f'] s0; reflexivity).
    rewrite !C, L1, L2. destruct (called1 o1 _ p) as [e|[x|l]], (called1 o2 _ p) as [e'|[y|m]]; try contradiction; cbn; auto. split; auto. apply sim_call; auto.
  Qed.
  Lemma rel_phen_of : forall r r', rr r r' -> rel eq (phen_of r) (phen_of r').
  Proof. intros r r' H. eapply rel_bind; [apply rel_get, H|]. intros i j []. rewrite ir_phen0. destruct (phenotype j) as [[ph|]|]; try apply rel_raise. apply rel_ret; auto. Qed.
  Lemma rel_assign_ranks : forall o1 o2 l m, mult -> agree1 o1 o2 -> refs l m -> rel eq (assign_ranks o1 l) (assign_ranks o2 m).
  Proof.
    intros o1 o2 l m MU A F. unfold assign_ranks. eapply rel_bind_eq; [eapply rel_miter; [|exact F]; intros; apply rel_modify; auto; intros; apply irel_set_rank; auto|]. intros _.
    induction F as [|x x' l m Hx F IH]; cbn [compare_all]; [apply rel_ret; auto|]. eapply rel_bind_eq; [|intros; apply IH]. eapply rel_miter; [|exact F]. intros y y' Hy.
    unfold compare_pair. eapply rel_bind with (Q := fun a b => match a, b with Some r, Some r' => rr r r' | None, None => True | _, _ => False end).
    - unfold inferior. eapply rel_bind_eq; [apply rel_phen_of, Hx|]. intros px. eapply rel_bind; [apply rel_call_list, A|]. intros xs xs' Fx.
      eapply rel_bind_eq; [apply rel_phen_of, Hy|]. intros py. eapply rel_bind; [apply rel_call_list, A|]. intros ys ys' Fy.
      rewrite (O_eqb MU (SVL xs) (SVL ys) _ _ Fx Fy : lst_eqb xs ys = lst_eqb xs' ys'). destruct (lst_eqb xs' ys'); [apply rel_ret; auto|].
      eapply rel_bind with (Q := fun a b => lst_eqb a xs = lst_eqb b xs' /\ lst_eqb a ys = lst_eqb b ys'); [apply rel_lift_in, O_max; auto|]. intros ms ms' [F1 F2]. apply rel_ret.
      rewrite F1, F2. destruct (lst_eqb ms' xs'); auto. destruct (lst_eqb ms' ys'); auto.
    - intros [r|] [r'|] H; try contradiction; [|apply rel_ret; auto]. unfold incr_rank. eapply rel_bind; [apply rel_get, H|]. intros i j I. rewrite (ir_rank _ _ I).
      destruct (rank j) as [[|z|lst]|]; try apply rel_raise. apply rel_modify; auto. intros; apply irel_set_rank; auto.
  Qed.
  Lemma evaluate_frame : forall f gen best r s s', evaluate f gen best r s = Ok tt s' ->
    next s' = next s /\ tape s' = tape s /\ ent s' = ent s /\ rnd_seed s' = rnd_seed s /\ prng s' = prng s /\ forall r', r' <> r -> heap s' r' = heap s r'.
  Proof.
    intros f gen best r s s' H. apply evaluate_ok in H. destruct H as [[_ ->]|(_ & v & _ & _ & _ & (A & B & C & D & E) & F)]; repeat split; auto.
  Qed.

  Section Fit.
  Variables f1 f2 : fitness.
  Hypothesis AG : agree f1 f2.
  Hypothesis FK : fkind f1 = fkind f2.
  Hypothesis AG1 : is_multi_kind (fkind f1) = true -> mult /\ agree1 (obj_function f1) (obj_function f2).
  Lemma rel_evaluate : forall gen b1 b2 r r', brel b1 b2 -> rr r r' -> rel eq (evaluate f1 gen b1 r) (evaluate f2 gen b2 r').
  Proof.
    intros gen b1 b2 r r' Hb Hr s t S. pose proof (sm_heap _ _ S r r' Hr) as I. pose proof (ir_score _ _ I) as V.
    assert (En : is_none (score (heap t r')) = is_none (score (heap s r))) by (destruct V; reflexivity).
    destruct (is_none (score (heap s r))) eqn:Hn.
    - pose proof (evaluate_run f1 gen b1 r s Hn) as E1. pose proof (evaluate_run f2 gen b2 r' t En) as E2.
      destruct (sim_log_length _ _ S) as (j & L1 & L2). rewrite L1 in E1. rewrite L2, <- (ir_geno _ _ I) in E2.
      assert (Sn : score (heap s r) = SVNone) by (destruct (score (heap s r)); auto; discriminate Hn).
      pose proof (AG j (genotype (heap s r)) gen b1 b2 _ _ I Sn Hb) as A.
      destruct (called f1 _ _) as [e|v], (called f2 _ _) as [e'|w]; try contradiction.
      + rewrite E1, E2. exact A.
      + destruct (assess f1 gen b1 v (heap s r)) as [e|j1], (assess f2 gen b2 w (heap t r')) as [e'|j2]; cbn in A; try contradiction.
        * rewrite E1, E2. exact A.
        * destruct E1 as (s' & E1 & H1 & G1), E2 as (t' & E2 & H2 & G2). rewrite E1, E2. split; auto.
          destruct (evaluate_frame _ _ _ _ _ _ E1) as (A1 & A2 & A3 & A4 & A5 & A6). destruct (evaluate_frame _ _ _ _ _ _ E2) as (B1 & B2 & B3 & B4 & B5 & B6).
          destruct S as [Sh Sx St Se Ss Sp (c & d & D1 & D2 & D3)]. constructor; try congruence.
          -- intros q q' Hq. pose proof (rr_eqb _ _ _ _ Hq Hr) as Eq. destruct (Nat.eqb_spec q r) as [->|N], (Nat.eqb_spec q' r') as [->|N']; try discriminate; [rewrite H1, H2; auto|].
             rewrite A6, B6; auto.
          -- rewrite (ir_geno _ _ I) in G1. exists ((genotype (heap t r'), v) :: c), ((genotype (heap t r'), w) :: d). rewrite G1, G2, D1, D2. cbn. rewrite (ir_geno _ _ I), D3. auto.
    - unfold evaluate, bind, get. rewrite Hn, En. split; auto.
  Qed.
  Lemma rel_fitness : forall a b, grel a b -> rel eq (fitness_execute f1 a) (fitness_execute f2 b).
  Proof.
    intros a b G. gr. unfold fitness_execute. cbv zeta.
    assert (B : rel eq (base_fitness_execute f1 a) (base_fitness_execute f2 b)).
    { unfold base_fitness_execute. cbv zeta. rewrite Pg, Gg.
      eapply rel_bind_eq. { destruct (is_phenotype (gspec_of (population b))); [|apply rel_ret; auto]. eapply rel_bind_eq; [apply rel_get_phenotype, Pm|]. intros. apply rel_swap, Pm. }
      intros. eapply rel_bind_eq; [eapply rel_miter; [intros; apply rel_evaluate; eassumption|exact Pm]|]. intros. destruct (is_phenotype (gspec_of (population b))); [apply rel_swap, Pm|apply rel_ret; auto]. }
    rewrite <- FK. destruct (is_multi_kind (fkind f1)) eqn:Mk; auto. destruct (AG1 eq_refl) as [MU A1]. rewrite Pg.
    eapply rel_bind_eq; [destruct (is_phenotype (gspec_of (population b))); [apply rel_get_phenotype, Pm|apply rel_ret; auto]|]. intros _. eapply rel_bind_eq; [apply rel_assign_ranks; auto|]. intros. exact B.
  Qed.

  (** The main loop. *)
  Definition crel (c d : comps) : Prop := c_fitness c = f1 /\ c_fitness d = f2 /\ (by_order (c_selection c) \/ same_scores) /\ c_selection d = c_selection c /\
    c_crossover d = c_crossover c /\ c_mutation d = c_mutation c /\ c_newgen d = c_newgen c.
  Definition cgrel (p q : comps * gadata) : Prop := crel (fst p) (fst q) /\ grel (snd p) (snd q).
  Lemma rel_step : forall fuel c d a b, crel c d -> grel a b -> rel cgrel (ga_step fuel c a) (ga_step fuel d b).
  Proof.
    intros fuel c d a b (F1 & F2 & Sc & Sd & Cd & Md & Nd) G. unfold ga_step. rewrite Sd, Cd, Md, Nd, F1, F2.
    eapply rel_bind; [apply rel_selection_execute; auto|]. intros a1 b1 G1. eapply rel_bind; [apply rel_crossover_execute; eauto|]. intros a2 b2 G2.
    eapply rel_bind_eq; [apply rel_mutation_execute; eauto|]. intros m. eapply rel_bind; [apply rel_newgen_execute; eauto|]. intros a3 b3 G3.
    eapply rel_bind_eq; [apply rel_fitness; auto|]. intros _. eapply rel_bind; [apply rel_update; eauto|]. intros a4 b4 G4. apply rel_ret. split; auto.
    unfold crel, set_mutation. cbn. repeat (split; auto).
  Qed.
  Lemma rel_loop : forall fuel k c d a b, crel c d -> grel a b -> rel cgrel (ga_loop fuel k c a) (ga_loop fuel k d b).
  Proof.
    intros fuel. induction k as [|k IH]; intros c d a b C G; cbn [ga_loop]; [apply rel_ret; split; auto|]. eapply rel_bind; [apply rel_step; eauto|].
    intros [c1 a1] [d1 b1] [C1 G1]. cbn [fst snd] in *. eapply rel_bind_eq.
    { unfold should_stop. pose proof G1 as G0. destruct G0. rewrite gr_stop0, gr_ni0. destruct (early_stop b1); [apply rel_ret; auto|apply rel_raise]. }
    intros [|]; [apply rel_ret; split; auto|apply IH; auto].
  Qed.
  Lemma rel_run : forall fuel c d a b, crel c d -> grel a b -> rel cgrel (run_loop fuel c a) (run_loop fuel d b).
  Proof.
    intros fuel c d a b C G. unfold run_loop. pose proof C as (F1 & F2 & _). rewrite F1, F2. eapply rel_bind_eq; [apply rel_fitness; auto|]. intros _.
    eapply rel_bind; [apply rel_update; eauto|]. intros a1 b1 G1. rewrite (gr_num _ _ G1). apply rel_loop; auto.
  Qed.
  End Fit.

  (** A new GaData. *)
  Lemma grel_new : forall multi ng cp es p q, (multi = true -> mult) -> prel p q -> grel (new_gadata multi ng cp es p) (new_gadata multi ng cp es q).
  Proof. intros. constructor; cbn; auto; constructor. Qed.

  (** The same settings, possibly with another objective function, target and input_data. *)
  Definition same_settings (c d : config) : Prop :=
    cf_num_generations c = cf_num_generations d /\ cf_num_individ c = cf_num_individ d /\ cf_children_percent c = cf_children_percent d /\ cf_early_stop c = cf_early_stop d /\
    cf_input_population c = cf_input_population d /\ cf_mutation_lvl c = cf_mutation_lvl d /\ cf_transfer c = cf_transfer d /\ cf_is_print c = cf_is_print d.
  Definition fitness_of (fk : fitness_kind) (cf : config) := new_fitness fk (cf_objective cf) (cf_obj_value cf) (cf_input_data cf) (cf_penalty cf) (cf_conditions cf).
  Definition frel (x y : fitness * option (list string)) : Prop := agree (fst x) (fst y) /\ fkind (fst x) = fkind (fst y) /\
    (is_multi_kind (fkind (fst x)) = true -> mult /\ agree1 (obj_function (fst x)) (obj_function (fst y))) /\ snd x = snd y.
  Definition outrel (x y : gadata * option (list string)) : Prop := grel (fst x) (fst y) /\ snd x = snd y.
  Lemma rel_ga_optimize : forall fuel c d multi g fk sel ck mk ngm, same_settings c d -> (multi = true -> mult) -> by_order sel \/ same_scores ->
    erel frel (fitness_of fk c) (fitness_of fk d) -> rel outrel (ga_optimize fuel c multi g fk sel ck mk ngm) (ga_optimize fuel d multi g fk sel ck mk ngm).
  Proof.
    intros fuel c d multi g fk sel ck mk ngm (E1 & E2 & E3 & E4 & E5 & E6 & E7 & E8) MU BO FF. unfold ga_optimize, resolved_stop. rewrite E1, E2, E3, E4, E5, E6, E7, E8.
    eapply rel_bind_eq; [apply rel_seed|]. intros _. eapply rel_bind_eq; [apply rel_lift|]. intros p. eapply rel_bind; [apply rel_lift_in, FF|]. intros [f1 c1] [f2 c2] (A & Fk & A1 & Ec).
    cbn [fst snd] in *. eapply rel_bind_eq; [apply rel_lift|]. intros m. eapply rel_bind_eq; [apply rel_lift|]. intros ng. eapply rel_bind; [apply rel_fill|]. intros q q' Hq. cbv zeta.
    eapply rel_bind; [apply (rel_run f1 f2 A Fk A1); [|apply grel_new; eauto]|].
    - repeat split; auto.
    - intros [c3 a] [c4 b] [_ G]. cbn [fst snd] in *. eapply rel_bind_eq; [destruct (cf_is_print d); [apply rel_print; auto|apply rel_ret; auto]|]. intros. apply rel_ret. split; auto.
  Qed.
  Lemma rel_vega : forall fuel c d gray gens, same_settings c d -> cf_conditions c = cf_conditions d -> mult -> agree1 (cf_objective c) (cf_objective d) ->
    erel frel (fitness_of VegaHyperbola c) (fitness_of VegaHyperbola d) -> rel outrel (vega fuel c gray gens) (vega fuel d gray gens).
  Proof.
    intros fuel c d gray gens SS EC MU A1 FF. unfold vega. rewrite EC. eapply rel_bind_eq; [|intros; apply rel_ga_optimize; auto; left; exact I].
    destruct (cf_conditions d); [apply rel_ret; auto|]. eapply rel_bind; [apply rel_call_list, A1|]. intros l m L. apply rel_ret. rewrite (O_len MU _ _ L). reflexivity.
  Qed.
End Rel.

(** Objective values that correspond component by component. *)
Section Componentwise.
  Context {NO : NumOps}.
  Variable P : nat -> num -> num -> Prop.
  Hypothesis P_lt : forall k a b x y, P k a x -> P k b y -> nltb a b = nltb x y.
  Hypothesis P_eqb : forall k a b x y, P k a x -> P k b y -> neqb a b = neqb x y.
  Lemma vrel_eqb : forall v w x y, vrel P v x -> vrel P w y -> sv_eqb v w = sv_eqb x y.
  Proof. intros v w x y A B. eapply sv_eqb_rel; eauto. Qed.
  Lemma vrel_list : forall l m, vrel P (SVL l) (SVL m) -> lrel P 0 l m.
  Proof. intros l m H. inversion H; auto. Qed.
  Lemma vrel_len : forall l m, vrel P (SVL l) (SVL m) -> length l = length m.
  Proof. intros l m H. apply vrel_list in H. eapply lrel_length; eauto. Qed.
  Lemma lrel_max : forall m k l l' m', lrel P k l l' -> lrel P k m m' ->
    match max_score l m, max_score l' m' with inl e, inl e' => e = e' | inr a, inr b => lrel P k a b | _, _ => False end.
  Proof.
    induction m as [|q m IH]; intros k l l' [|q' m'] A B; cbn [lrel] in B; try contradiction; destruct l as [|p l], l' as [|p' l']; cbn [max_score]; try exact A; cbn [lrel] in A; try contradiction; [reflexivity|]. specialize (IH _ _ _ _ (proj2 A) (proj2 B)).
    destruct (max_score l m) as [e|x], (max_score l' m') as [e'|y]; try contradiction; auto. cbn [lrel].
    rewrite (P_lt _ _ _ _ _ (proj1 A) (proj1 B)). split; auto. destruct (nltb p' q'); [apply B|apply A].
  Qed.
  Lemma vrel_max : forall l m l' m', vrel P (SVL l) (SVL l') -> vrel P (SVL m) (SVL m') ->
    match max_score l m, max_score l' m' with inl e, inl e' => e = e' | inr a, inr b => lst_eqb a l = lst_eqb b l' /\ lst_eqb a m = lst_eqb b m' | _, _ => False end.
  Proof.
    intros l m l' m' A B. apply vrel_list in A. apply vrel_list in B. pose proof (lrel_max _ _ _ _ _ A B) as H.
    destruct (max_score l m) as [e|a], (max_score l' m') as [e'|b]; auto. split; apply (vrel_eqb (SVL a) (SVL _) (SVL b) (SVL _)); constructor; auto.
  Qed.
End Componentwise.
