(** Replacement of the generation: C31, C32, C33, C34. *)
From Coq Require Import String.
From Coq Require Import ZArith QArith List Bool Lia Permutation Sorted.
From Verif Require Import Spec Num State Binary Population GaData NewGeneration ListLemmas Rnd Exec Laws
  SelectionProofs NewGenProofs Demo.
Import ListNotations.
Open Scope list_scope.
Open Scope Z_scope.

(** The individuals at references r and r' have equal genotypes. *)
Definition same_genotype {NO : NumOps} (s : st) (r r' : nat) : Prop :=
  gvs_eqb (genotype (heap s r)) (genotype (heap s r')) = true.
(** Every individual of the list has a usable score and usable genes. *)
Definition usable {NO : NumOps} (ok : num -> Prop) (s : st) (l : list nat) : Prop :=
  forall r, In r l -> (exists x, score (heap s r) = SV1 x /\ ok x) /\
                      (forall x, In (GNum x) (genotype (heap s r)) -> ok x).
(** Scores do not decrease along the list. *)
Definition by_score {NO : NumOps} (s : st) (l : list nat) : Prop :=
  forall i j a b x y, (i <= j)%nat -> nth_error l i = Some a -> nth_error l j = Some b ->
    score (heap s a) = SV1 x -> score (heap s b) = SV1 y -> nltb y x = false.
(** The flag is_sorted of the population is truthful. *)
Definition flag_true {NO : NumOps} (p : pop) (s : st) : Prop := is_sorted p = true -> by_score s (members p).
(** The number of individuals missing after the children. *)
Definition missing {NO : NumOps} (gd : gadata) : Z := num_individ (population gd) - Z.of_nat (length (children gd)).
Definition next_members {NO : NumOps} (gd : gadata) : list nat := members (population gd).

Section Facts.
  Context {NO : NumOps}.
  Lemma usable_key : forall ok s l, usable ok s l -> forall r, In r l -> scalar_key ok KScore s r.
  Proof. intros ok s l U r Hr. destruct (proj1 (U r Hr)) as (x & E & Hx). exists x. cbn. rewrite E. auto. Qed.
  Lemma usable_genes : forall ok s l, usable ok s l -> forall r, In r l -> Forall (gene_ok (ok := ok)) (genotype (heap s r)).
  Proof.
    intros ok s l U r Hr. apply Forall_forall. intros g Hg. destruct g; cbn; auto. apply (proj2 (U r Hr)); auto.
  Qed.
  Lemma asc_by_score : forall ok s l, NumOrder NO ok -> (forall r, In r l -> scalar_key ok KScore s r) -> asc KScore s l -> by_score s l.
  Proof.
    intros ok s l NL K A i j a b x y Hij Ha Hb Ex Ey. eapply (asc_nth ok KScore s l i j a b); eauto.
    - cbn. rewrite Ex; auto.
    - cbn. rewrite Ey; auto.
    - destruct (K b (nth_error_In _ _ Hb)) as (z & Ez & Oz). cbn in Ez. rewrite Ey in Ez. inversion Ez; subst. auto.
  Qed.
  Lemma sorted_list : forall ok gd s l, NumOrder NO ok -> usable ok s (members (population gd)) -> flag_true (population gd) s ->
    sorted_from KScore (population gd) s l -> Permutation l (members (population gd)) /\ by_score s l.
  Proof.
    intros ok gd s l NL U F H. split; [eapply sorted_from_perm; eauto|]. unfold sorted_from in H. unfold flag_true in F.
    destruct (is_sorted (population gd)); [subst; auto|]. apply sort_ok in H. destruct H as (_ & P & K).
    destruct (K ok NL) as [A _]; [apply usable_key; auto|]. apply (asc_by_score ok); auto.
    intros r Hr. apply (usable_key _ _ _ U). eapply Permutation_in; eauto.
  Qed.
  Lemma no_repeat : forall s l, (forall i j a b, (i < j)%nat -> nth_error l i = Some a -> nth_error l j = Some b -> ~ same_genotype s a b) <->
    has_dup (genos s l) = false.
  Proof.
    intros s l. rewrite <- not_true_iff_false, has_dup_iff. unfold repeated, genos. split.
    - intros H (i & j & g & h & Hij & E1 & E2 & E3). rewrite nth_error_map in E1, E2.
      destruct (nth_error l i) as [a|] eqn:Ea; [|discriminate]. destruct (nth_error l j) as [b|] eqn:Eb; [|discriminate].
      cbn in E1, E2. inversion E1; inversion E2; subst. eapply H; eauto.
    - intros H i j a b Hij Ea Eb S. apply H. exists i, j, (genotype (heap s a)), (genotype (heap s b)). rewrite !nth_error_map, Ea, Eb. auto.
  Qed.
End Facts.

(** C31.  With at least one child, and at least num_individ old members, the next
    generation has max(n, c) + 1 members and the attribute num_individ is still n. *)
Theorem C31_size : forall {NO : NumOps} ng gd s gd' s', ng_multi ng = false ->
  newgen_execute ng gd s = Ok gd' s' ->
  (1 <= length (children gd))%nat -> num_individ (population gd) <= Z.of_nat (length (members (population gd))) ->
  Z.of_nat (length (next_members gd')) = Z.max (num_individ (population gd)) (Z.of_nat (length (children gd))) + 1 /\
  num_individ (population gd') = num_individ (population gd).
Proof.
  intros NO ng gd s gd' s' M H Hc Hn. apply newgen_single_ok in H; auto. destruct H as (l & els & S1 & T & _ & ->).
  apply sorted_from_perm in S1. apply Permutation_length in S1.
  apply taken_length in T; [|lia]. cbn. split; auto. rewrite app_length, T.
  destruct (0 <? num_individ (population gd) - Z.of_nat (length (children gd))) eqn:E; [apply Z.ltb_lt in E|apply Z.ltb_ge in E]; lia.
Qed.
(** Without children: best transfer keeps all members, one more if two of them have
    equal genotypes. *)
Theorem C31_no_children : forall {NO : NumOps} ok, NumOrder NO ok -> forall ng gd s gd' s', ng_multi ng = false -> ng_transfer ng = TBest ->
  newgen_execute ng gd s = Ok gd' s' -> children gd = [] -> usable ok s (members (population gd)) ->
  num_individ (population gd) = Z.of_nat (length (members (population gd))) -> members (population gd) <> [] ->
  exists l, Permutation l (members (population gd)) /\
    ((forall i j a b, (i < j)%nat -> nth_error l i = Some a -> nth_error l j = Some b -> ~ same_genotype s a b) -> next_members gd' = l) /\
    ((exists i j a b, (i < j)%nat /\ nth_error l i = Some a /\ nth_error l j = Some b /\ same_genotype s a b) ->
       length (next_members gd') = S (length l)).
Proof.
  intros NO ok NL ng gd s gd' s' M Tr H Hc U Hn Ne. apply newgen_single_ok in H; auto. destruct H as (l & els & S1 & T & _ & ->).
  apply sorted_from_perm in S1. exists l. split; auto. pose proof (Permutation_length S1) as L.
  rewrite Hc, Tr in *. cbn [length] in T. unfold taken in T.
  assert (Hk : 0 < num_individ (population gd)). { rewrite Hn. destruct (members (population gd)); [contradiction|cbn [length]; lia]. }
  rewrite Z.sub_0_r in T. destruct (0 <? num_individ (population gd)) eqn:E; [|apply Z.ltb_ge in E; lia].
  assert (Et : top (Z.to_nat (num_individ (population gd)) + 1) l = l).
  { unfold top. replace (length l - _)%nat with 0%nat by lia. reflexivity. }
  cbv zeta in T. rewrite Et in T. destruct T as [T1 T2]. cbn [next_members population with_next set_children set_population members set_sorted set_members app].
  split; intros R.
  - apply T1. apply no_repeat. auto.
  - assert (D : has_dup (genos s l) = true).
    { apply not_false_iff_true. rewrite <- no_repeat. intros C. destruct R as (i & j & a & b & Hij & Ea & Eb & S). apply (C i j a b); auto. }
    destruct (T2 D) as [[_ (smp & P & ->)]|(p & smp & Dm & -> & P)]; apply picks_length in P; rewrite app_length, P.
    + lia.
    + apply doomed_bound in Dm. unfold genos in Dm. rewrite map_length in Dm. rewrite remove_at_len by lia. lia.
Qed.

(** C32.  The next generation consists of all children followed by old members, among
    them one with the highest score; no individual is changed. *)
Theorem C32_elitism : forall {NO : NumOps} ok, NumOrder NO ok -> forall ng gd s gd' s', ng_multi ng = false ->
  newgen_execute ng gd s = Ok gd' s' -> usable ok s (members (population gd)) -> flag_true (population gd) s ->
  members (population gd) <> [] ->
  heap s' = heap s /\
  exists els best, next_members gd' = children gd ++ els /\ incl els (members (population gd)) /\ In best els /\
    forall r x y, In r (members (population gd)) -> score (heap s r) = SV1 x -> score (heap s best) = SV1 y -> nltb y x = false.
Proof.
  intros NO ok NL ng gd s gd' s' M H U F Ne. apply newgen_single_ok in H; auto. destruct H as (l & els & S1 & T & Hs & ->).
  split; [rewrite Hs; reflexivity|]. destruct (sorted_list ok gd s l NL U F S1) as [P B].
  destruct l as [|b l0 _] using rev_ind; [apply Permutation_nil in P; contradiction|].
  apply taken_snoc in T. destruct T as (e & -> & I). exists (e ++ [b]), b. split; [reflexivity|]. split; [|split].
  - intros x Hx. apply (Permutation_in _ P). apply in_app_or in Hx. destruct Hx as [Hx|[<-|[]]]; [auto|apply in_or_app; right; left; auto].
  - apply in_or_app; right; left; auto.
  - intros r x y Hr Ex Ey. apply (Permutation_in _ (Permutation_sym P)) in Hr. apply In_nth_error in Hr. destruct Hr as (i & Hi).
    assert (i < length (l0 ++ [b]))%nat by (apply nth_error_Some; congruence). rewrite app_length in *. cbn [length] in *.
    apply (B i (length l0) r b x y); auto; [lia|]. rewrite nth_error_app2 by lia. rewrite Nat.sub_diag. reflexivity.
Qed.

(** C33.  Best transfer, k missing individuals, more than k old members: with [best]
    the k+1 members of highest score, they all survive if their genotypes differ;
    otherwise exactly one of them that is repeated by a better one is replaced by some
    member. *)
Theorem C33_best : forall {NO : NumOps} ok, NumOrder NO ok -> forall ng gd s gd' s' k, ng_multi ng = false -> ng_transfer ng = TBest ->
  newgen_execute ng gd s = Ok gd' s' -> usable ok s (members (population gd)) -> flag_true (population gd) s ->
  missing gd = Z.of_nat k -> (1 <= k < length (members (population gd)))%nat ->
  exists rest best, Permutation (rest ++ best) (members (population gd)) /\ by_score s (rest ++ best) /\ length best = S k /\
    ((forall i j a b, (i < j)%nat -> nth_error best i = Some a -> nth_error best j = Some b -> ~ same_genotype s a b) ->
       next_members gd' = children gd ++ best) /\
    ((exists i j a b, (i < j)%nat /\ nth_error best i = Some a /\ nth_error best j = Some b /\ same_genotype s a b) ->
       exists p q a b x, (p < q)%nat /\ nth_error best p = Some a /\ nth_error best q = Some b /\ same_genotype s b a /\
         In x (members (population gd)) /\
         next_members gd' = children gd ++ x :: firstn p best ++ skipn (S p) best).
Proof.
  intros NO ok NL ng gd s gd' s' k M Tr H U F Hk Hl. apply newgen_single_ok in H; auto. destruct H as (l & els & S1 & T & Hs & ->).
  destruct (sorted_list ok gd s l NL U F S1) as [P B]. pose proof (Permutation_length P) as L.
  unfold missing in Hk. rewrite Hk, Tr in T. unfold taken in T. rewrite Nat2Z.id in T.
  destruct (0 <? Z.of_nat k) eqn:E; [|apply Z.ltb_ge in E; lia]. cbv zeta in T.
  exists (firstn (length l - (k + 1)) l), (top (k + 1) l). unfold top at 1 2. rewrite firstn_skipn.
  split; auto. split; auto. split; [rewrite top_length; lia|]. destruct T as [T1 T2].
  cbn [next_members population with_next set_children set_population members set_sorted set_members].
  split; intros R.
  - rewrite T1; auto. apply no_repeat. auto.
  - assert (D : has_dup (genos s (top (k + 1) l)) = true).
    { apply not_false_iff_true. rewrite <- no_repeat. intros C. destruct R as (i & j & a & b & Hij & Ea & Eb & S). apply (C i j a b); auto. }
    destruct (T2 D) as [[N _]|(p & smp & Dm & -> & Pk)].
    + exfalso. assert (C : repeated (rev (genos s (top (k + 1) l)))).
      { apply (repeated_rev _ NL); [|apply has_dup_iff; auto]. apply Forall_forall. intros g Hg. unfold genos in Hg. apply in_map_iff in Hg.
        destruct Hg as (r & <- & Hr). apply (usable_genes _ _ _ U). apply (Permutation_in _ P). eapply top_incl; eauto. }
      apply has_dup_iff in C. congruence.
    + pose proof (doomed_bound _ _ Dm) as Bp. unfold genos in Bp. rewrite map_length in Bp. rewrite top_length in *.
      replace (k + 1 - (Nat.min (k + 1) (length l) - 1))%nat with 1%nat in Pk by lia.
      pose proof (picks_length _ _ _ Pk) as Ls. pose proof (picks_incl _ _ _ Pk) as Is. destruct smp as [|x [|]]; try discriminate.
      destruct Dm as (q & (g & h & Hpq & Eg & Eh & Egh) & _). unfold genos in Eg, Eh. rewrite nth_error_map in Eg, Eh.
      destruct (nth_error (top (k + 1) l) p) as [a|] eqn:Ea; [|discriminate]. destruct (nth_error (top (k + 1) l) q) as [b|] eqn:Eb; [|discriminate].
      cbn in Eg, Eh. inversion Eg; inversion Eh; subst.
      exists p, q, a, b, x. do 3 (split; auto). split; [exact Egh|]. split; [apply (Permutation_in _ P); apply Is; left; auto|reflexivity].
Qed.
(** The replacement is any member: each x can be drawn, in particular one that is
    kept already, so that the next generation holds the same object twice. *)
Theorem C33_any_replacement : forall {NO : NumOps} ok, NumOrder NO ok -> forall ng gd s k, ng_multi ng = false -> ng_transfer ng = TBest ->
  usable ok s (members (population gd)) -> missing gd = Z.of_nat k -> (1 <= k < length (members (population gd)))%nat ->
  exists l, Permutation l (members (population gd)) /\
    let best := skipn (length l - S k) l in
    ((exists i j a b, (i < j)%nat /\ nth_error best i = Some a /\ nth_error best j = Some b /\ same_genotype s a b) ->
     exists p, (S p < length best)%nat /\
       forall x, In x (members (population gd)) -> exists t gd' s', newgen_execute ng gd (set_tape t s) = Ok gd' s' /\
         next_members gd' = children gd ++ x :: firstn p best ++ skipn (S p) best).
Proof.
  intros NO ok NL ng gd s k M Tr U Hk Hl.
  assert (S1 : exists l, (forall t, (if is_sorted (population gd) then ret (members (population gd)) else sort_by_dict KScore (members (population gd))) (set_tape t s) = Ok l (set_tape t s))
      /\ Permutation l (members (population gd))).
  { destruct (is_sorted (population gd)); [exists (members (population gd)); split; [reflexivity|auto]|].
    destruct (sort_safe ok KScore (members (population gd)) s) as (l & E); [intros; eapply usable_key; eauto|].
    exists l. pose proof (sort_ok _ _ _ _ _ E) as (_ & P & _). split; auto. intros t.
    unfold sort_by_dict, bind in E |- *. destruct (mmap (read_key KScore) (members (population gd)) s) as [kv s1| |] eqn:R; try discriminate.
    pose proof (read_keys_ok _ _ _ _ _ R) as (-> & E1 & F1).
    assert (R' : mmap (read_key KScore) (members (population gd)) (set_tape t s) = Ok kv (set_tape t s)).
    { replace kv with (combine (map fst kv) (members (population gd))).
      - apply read_keys_run. rewrite <- E1. clear -F1. induction F1; cbn; constructor; auto.
      - rewrite <- E1. clear. induction kv as [|[a b] kv IH]; cbn; congruence. }
    rewrite R'. destruct (comparable (map fst kv)); [|discriminate]. unfold ret in *. inversion E; subst. reflexivity. }
  destruct S1 as (l & E & P). exists l. split; auto. cbv zeta. intros R. pose proof (Permutation_length P) as L.
  assert (G : Forall (Forall (gene_ok (ok := ok))) (genos s l)).
  { apply Forall_forall. intros g Hg. unfold genos in Hg. apply in_map_iff in Hg. destruct Hg as (r & <- & Hr).
    apply (usable_genes _ _ _ U). apply (Permutation_in _ P). auto. }
  pose proof (add_best_possible ok NL l (Z.of_nat k) (Z.of_nat (length (children gd))) s ltac:(lia) G ltac:(lia)) as X. cbv zeta in X.
  rewrite Nat2Z.id in X. replace (S k) with (k + 1)%nat in * by lia. fold (top (k + 1) l) in *.
  assert (D : has_dup (genos s (top (k + 1) l)) = true).
  { apply not_false_iff_true. rewrite <- no_repeat. intros C. destruct R as (i & j & a & b & Hij & Ea & Eb & S). apply (C i j a b); auto. }
  rewrite D in X. destruct X as [X1 X2]. destruct (X1 (tape s)) as (els & t1 & _ & (p & smp & Dm & _ & _)).
  exists p. split; [pose proof (doomed_bound _ _ Dm) as Bp; unfold genos in Bp; rewrite map_length in Bp; auto|].
  intros x Hx. apply (Permutation_in _ (Permutation_sym P)) in Hx.
  destruct (X2 (x :: remove_at p (top (k + 1) l))) as (ds & Hd).
  { exists p, [x]. split; auto. split; auto. rewrite top_length. replace (k + 1 - (Nat.min (k + 1) (length l) - 1))%nat with 1%nat by lia.
    apply picks_iff. split; auto. apply in_split in Hx. destruct Hx as (l1 & l2 & ->). exists (l1 ++ l2). cbn. apply Permutation_middle. }
  exists (papp ds (tape s)). eexists _, _. split.
  - unfold newgen_execute. rewrite M. unfold missing in Hk. unfold bind at 1. rewrite E. cbv zeta. rewrite Hk.
    destruct (0 <? Z.of_nat k) eqn:E0; [|apply Z.ltb_ge in E0; lia]. unfold add_parents, bind. rewrite Tr, M, Hd. unfold ret. reflexivity.
  - reflexivity.
Qed.

(** C34.  The accepted strings, exactly. *)
Theorem C34_validation : forall multi s,
  (new_newgen multi s = inr (mkNG multi TBest) <-> s = "best"%string) /\
  (new_newgen multi s = inr (mkNG multi TRandom) <-> s = "random"%string) /\
  ((exists e, new_newgen multi s = inl e) <-> s <> "best"%string /\ s <> "random"%string).
Proof.
  intros multi s. unfold new_newgen. destruct (String.eqb_spec s "best") as [->|N1]; [|destruct (String.eqb_spec s "random") as [->|N2]].
  - split; [tauto|]. split; [split; discriminate|]. split; [intros [e C]; discriminate|intros [C _]; congruence].
  - split; [split; discriminate|]. split; [tauto|]. split; [intros [e C]; discriminate|intros [_ C]; congruence].
  - split; [split; [discriminate|contradiction]|]. split; [split; [discriminate|contradiction]|]. split; [auto|eauto].
Qed.
(** Random transfer: the possible next generations are exactly the children, k members
    at distinct positions other than that of the best, and the best. *)
Theorem C34_random : forall {NO : NumOps} ok, NumOrder NO ok -> forall ng gd s k, ng_multi ng = false -> ng_transfer ng = TRandom ->
  usable ok s (members (population gd)) -> flag_true (population gd) s ->
  missing gd = Z.of_nat k -> (1 <= k < length (members (population gd)))%nat ->
  exists rest best, Permutation (rest ++ [best]) (members (population gd)) /\ by_score s (rest ++ [best]) /\
    (forall gd' s', newgen_execute ng gd s = Ok gd' s' ->
       exists e unused, Permutation (e ++ unused) rest /\ length e = k /\ next_members gd' = children gd ++ e ++ [best]) /\
    (forall e unused, Permutation (e ++ unused) rest -> length e = k ->
       exists t gd' s', newgen_execute ng gd (set_tape t s) = Ok gd' s' /\ next_members gd' = children gd ++ e ++ [best]).
Proof.
  intros NO ok NL ng gd s k M Tr U F Hk Hl.
  assert (S1 : exists l, (forall t, (if is_sorted (population gd) then ret (members (population gd)) else sort_by_dict KScore (members (population gd))) (set_tape t s) = Ok l (set_tape t s))
      /\ sorted_from KScore (population gd) s l).
  { unfold sorted_from. destruct (is_sorted (population gd)); [exists (members (population gd)); split; reflexivity|].
    destruct (sort_safe ok KScore (members (population gd)) s) as (l & E); [intros; eapply usable_key; eauto|].
    exists l. split; auto. intros t.
    unfold sort_by_dict, bind in E |- *. destruct (mmap (read_key KScore) (members (population gd)) s) as [kv s1| |] eqn:R; try discriminate.
    pose proof (read_keys_ok _ _ _ _ _ R) as (-> & E1 & F1).
    assert (R' : mmap (read_key KScore) (members (population gd)) (set_tape t s) = Ok kv (set_tape t s)).
    { replace kv with (combine (map fst kv) (members (population gd))).
      - apply read_keys_run. rewrite <- E1. clear -F1. induction F1; cbn; constructor; auto.
      - rewrite <- E1. clear. induction kv as [|[a b] kv IH]; cbn; congruence. }
    rewrite R'. destruct (comparable (map fst kv)); [|discriminate]. unfold ret in *. inversion E; subst. reflexivity. }
  destruct S1 as (l & E & S1). destruct (sorted_list ok gd s l NL U F S1) as [P B]. pose proof (Permutation_length P) as L.
  destruct l as [|b l0 _] using rev_ind; [cbn in L; lia|]. exists l0, b. split; auto. split; auto.
  rewrite app_length in L. cbn [length] in L. split.
  - intros gd' s' H. apply newgen_single_ok in H; auto. destruct H as (l' & els & S' & T & _ & ->).
    assert (l' = l0 ++ [b]). { unfold sorted_from in S', S1. destruct (is_sorted (population gd)); congruence. } subst l'.
    unfold missing in Hk. rewrite Hk, Tr in T. unfold taken in T. rewrite Nat2Z.id in T.
    destruct (0 <? Z.of_nat k) eqn:E0; [|apply Z.ltb_ge in E0; lia]. destruct T as (l1 & b1 & e & El & Pk & -> & _).
    apply app_inj_tail in El. destruct El as [<- <-]. apply picks_iff in Pk. destruct Pk as [Le (un & Pe)]. exists e, un. auto.
  - intros e un Pe Le. assert (Pk : picks k l0 e) by (apply picks_iff; split; eauto).
    destruct (proj2 (add_random_possible l0 b (Z.of_nat k) (Z.of_nat (length (children gd))) s ltac:(lia)) (e ++ [b])) as (ds & Hd).
    { exists e. rewrite Nat2Z.id. auto. }
    exists (papp ds (tape s)). eexists _, _. split.
    + unfold newgen_execute. rewrite M. unfold missing in Hk. unfold bind at 1. rewrite E. cbv zeta. rewrite Hk.
      destruct (0 <? Z.of_nat k) eqn:E0; [|apply Z.ltb_ge in E0; lia]. unfold add_parents, bind. rewrite Tr, Hd. unfold ret. reflexivity.
    + reflexivity.
Qed.
(** Random transfer without children in a generation of num_individ members raises. *)
Theorem C34_no_children : forall {NO : NumOps} ok ng gd s, ng_multi ng = false -> ng_transfer ng = TRandom ->
  usable ok s (members (population gd)) -> children gd = [] -> members (population gd) <> [] ->
  num_individ (population gd) = Z.of_nat (length (members (population gd))) ->
  newgen_execute ng gd s = Err ValueError.
Proof.
  intros NO ok ng gd s M Tr U Hc Ne Hn.
  assert (S1 : exists l, (if is_sorted (population gd) then ret (members (population gd)) else sort_by_dict KScore (members (population gd))) s = Ok l s
      /\ Permutation l (members (population gd))).
  { destruct (is_sorted (population gd)); [exists (members (population gd)); split; [reflexivity|auto]|].
    destruct (sort_safe ok KScore (members (population gd)) s) as (l & E); [intros; eapply usable_key; eauto|].
    exists l. split; auto. apply sort_ok in E. tauto. }
  destruct S1 as (l & E & P). pose proof (Permutation_length P) as L.
  unfold newgen_execute. rewrite M. unfold bind at 1. rewrite E. cbv zeta. rewrite Hc. cbn [length]. rewrite Z.sub_0_r.
  assert (Hk : 0 < num_individ (population gd)). { rewrite Hn. destruct (members (population gd)); [contradiction|cbn [length]; lia]. }
  destruct (0 <? num_individ (population gd)) eqn:E0; [|apply Z.ltb_ge in E0; lia]. unfold add_parents, bind. rewrite Tr.
  unfold add_random, bind. rewrite sample_error; [reflexivity|]. right.
  destruct l as [|b l0 _] using rev_ind; [cbn in L; lia|]. rewrite slice_to_last. rewrite app_length in L. cbn [length] in L. lia.
Qed.

(** *** Concrete cases *)
Local Existing Instance Qops.
(** Four old individuals with scores 4, 1, 3, 2; one child (reference 4). *)
Definition old4 (g1 g3 : Z) : st :=
  world [ind (ints [1]) (q 4); ind (ints [g1]) (q 1); ind (ints [g3]) (q 3); ind (ints [4]) (q 2); ind (ints [9]) SVNone] [1; 0; 1; 0; 1].
Definition gd_child : gadata := set_children [4%nat] (gd_of (cat_pop 4)).
Lemma old4_usable : forall g1 g3, usable (fun _ => True) (old4 g1 g3) (members (population gd_child)).
Proof.
  intros g1 g3 r Hr. cbn in Hr. split; [|trivial].
  destruct Hr as [<-|[<-|[<-|[<-|[]]]]]; cbn; eexists; split; try reflexivity; trivial.
Qed.
(** Best transfer without duplicates: 5 = max(4,1)+1 members; all four old ones, ascending. *)
Example C31_case : value (newgen_execute (mkNG false TBest) gd_child (old4 2 3)) = Some (with_next [4; 1; 3; 2; 0]%nat gd_child).
Proof. run. Qed.
(** More children than num_individ: six children and the best old one, 7 = max(4,6)+1. *)
Example C31_many : value (newgen_execute (mkNG false TBest) (set_children [4;5;6;7;8;9]%nat gd_child) (old4 2 3)) =
  Some (with_next [4;5;6;7;8;9;0]%nat gd_child).
Proof. run. Qed.
(** References 2 and 0 have equal genotypes: 2 is dropped and the drawn member (here
    reference 3, kept anyway) comes in front: the same object twice. *)
Example C33_case : value (newgen_execute (mkNG false TBest) gd_child (old4 2 1)) = Some (with_next [4; 3; 1; 3; 0]%nat gd_child).
Proof. run. Qed.
Example C34_case : value (newgen_execute (mkNG false TRandom) gd_child (old4 2 3)) = Some (with_next [4; 3; 1; 2; 0]%nat gd_child).
Proof. run. Qed.
Example C34_raises : newgen_execute (mkNG false TRandom) (gd_of (cat_pop 4)) (old4 2 3) = Err ValueError.
Proof. run. Qed.
Example C32_hypotheses : missing gd_child = 3 /\ flag_true (population gd_child) (old4 2 1).
Proof. split; [reflexivity|discriminate]. Qed.

Print Assumptions C31_size.
Print Assumptions C31_no_children.
Print Assumptions C32_elitism.
Print Assumptions C33_best.
Print Assumptions C33_any_replacement.
Print Assumptions C34_validation.
Print Assumptions C34_random.
Print Assumptions C34_no_children.
