(** Proofs about sorting, duplicates and the replacement of the generation
    (Population.v, NewGeneration.v). *)
From Coq Require Import String.
From Coq Require Import ZArith List Bool Lia Permutation Sorted.
From Verif Require Import Spec Num State Binary Population GaData NewGeneration ListLemmas Rnd Exec Laws SelectionProofs.
Import ListNotations.
Open Scope list_scope.
Open Scope Z_scope.

(** The position in l of the k-th element from the end. *)
Lemma slice_from_neg : forall {A} (l : list A) k, 0 <= k ->
  slice_from l (- k - 1) = skipn (length l - (Z.to_nat k + 1)) l.
Proof.
  intros A l k Hk. unfold slice_from, slice_pos. destruct (- k - 1 <? 0) eqn:E; [|apply Z.ltb_ge in E; lia].
  f_equal. lia.
Qed.
Lemma slice_to_last : forall {A} (l : list A) x, slice_to (l ++ [x]) (-1) = l.
Proof.
  intros A l x. unfold slice_to, slice_pos. change (-1 <? 0) with true. cbv iota. rewrite app_length. cbn [length].
  replace (Z.to_nat _) with (length l) by lia. rewrite firstn_app, firstn_all, Nat.sub_diag. cbn. apply app_nil_r.
Qed.

Section NewGenProofs.
  Context {NO : NumOps}.

  (** *** Running in a fixed heap *)
  Lemma possible_in_bind : forall s {A B} (m : M A) (k : A -> M B) R R', possible_in s m R ->
    (forall a, R a -> possible_in s (k a) (R' a)) -> possible_in s (bind m k) (fun b => exists a, R a /\ R' a b).
  Proof.
    intros s A B m k R R' [H1 H2] Hk. split.
    - intros t. destruct (H1 t) as (a & t1 & E & Ra). destruct (proj1 (Hk a Ra) t1) as (b & t2 & E2 & Rb).
      exists b, t2. unfold bind. rewrite E, E2. eauto.
    - intros b (a & Ra & Rb). destruct (H2 a Ra) as (d1 & D1). destruct (proj2 (Hk a Ra) b Rb) as (d2 & D2).
      exists (d1 ++ d2). intros t. rewrite papp_app. unfold bind. rewrite D1. apply D2.
  Qed.
  Lemma possible_in_pure : forall s {A} (m : M A) a, (forall t, m (set_tape t s) = Ok a (set_tape t s)) ->
    possible_in s m (fun x => x = a).
  Proof.
    intros s A m a H. split; [intros t; exists a, t; auto|]. intros x ->. exists []. intros t. apply H.
  Qed.
  Lemma possible_in_iff : forall s {A} (m : M A) (R R' : A -> Prop), possible_in s m R -> (forall a, R a <-> R' a) ->
    possible_in s m R'.
  Proof.
    intros s A m R R' [H1 H2] E. split.
    - intros t. destruct (H1 t) as (a & t' & E1 & Ra). exists a, t'. split; auto. apply E; auto.
    - intros a Ra. apply H2, E, Ra.
  Qed.

  (** *** Sorting *)
  Lemma read_keys_ok : forall k l s kv s', mmap (read_key k) l s = Ok kv s' ->
    s' = s /\ map snd kv = l /\ Forall (fun p => key_of k (heap s (snd p)) = Some (fst p)) kv.
  Proof.
    intros k l. induction l as [|r l IH]; intros s kv s' H; cbn [mmap] in H.
    - apply ret_ok in H. destruct H as [-> ->]. repeat split; auto.
    - bd H p s1 R. unfold read_key in R. bd R i s2 R1. apply get_ok in R1. destruct R1 as [-> ->].
      bd R v s2 R1. apply lift_opt_ok in R1. destruct R1 as [E ->]. apply ret_ok in R. destruct R as [-> ->].
      bd H kv' s2 R2. apply ret_ok in H. destruct H as [-> ->]. apply IH in R2. destruct R2 as (-> & <- & F).
      repeat split; auto.
  Qed.
  Lemma read_keys_run : forall k l s vs, Forall2 (fun r v => key_of k (heap s r) = Some v) l vs ->
    mmap (read_key k) l s = Ok (combine vs l) s.
  Proof.
    intros k l s vs F. induction F as [|r v l vs E F IH]; [reflexivity|].
    cbn [mmap combine].
    assert (R : read_key k r s = Ok (v, r) s) by (unfold read_key, get, bind, lift_opt; rewrite E; reflexivity).
    unfold bind at 1. rewrite R. unfold bind. rewrite IH. reflexivity.
  Qed.
  (** Ascending with respect to a key: nobody is followed by somebody with a smaller key. *)
  Definition key_lt (k : skey) (i j : individ) : bool :=
    match key_of k i, key_of k j with Some v, Some w => sv_lt v w | _, _ => false end.
  Definition asc (k : skey) (s : st) (l : list nat) : Prop :=
    StronglySorted (fun a b => key_lt k (heap s b) (heap s a) = false) l.
  Definition scalar_key (ok : num -> Prop) (k : skey) (s : st) (r : nat) : Prop :=
    exists x, key_of k (heap s r) = Some (SV1 x) /\ ok x.

  Lemma map_snd_sorted : forall k s kv, Forall (fun p => key_of k (heap s (snd p)) = Some (fst p)) kv ->
    ascending kv_lt kv -> asc k s (map snd kv).
  Proof.
    intros k s kv F H. induction kv as [|p kv IH]; cbn [map]; [constructor|].
    inversion H; subst. inversion F; subst. constructor; [apply IH; auto|].
    apply Forall_forall. intros b Hb. apply in_map_iff in Hb. destruct Hb as (p' & <- & Hp).
    rewrite Forall_forall in H3, H5. specialize (H3 _ Hp). specialize (H5 _ Hp). unfold key_lt. rewrite H5, H4. exact H3.
  Qed.
  Lemma kv_weak_order : forall ok, NumOrder NO ok -> weak_order_on kv_lt (fun p => exists x, fst p = SV1 x /\ ok x).
  Proof.
    intros ok NL. split.
    - intros [v r] [w r'] (x & E & Hx) (y & E' & Hy). cbn [fst] in *. subst. unfold kv_lt, sv_lt. cbn. apply (lt_asym NL); auto.
    - intros [v1 r1] [v2 r2] [v3 r3] (x & E & Hx) (y & E' & Hy) (z & E'' & Hz). cbn [fst] in *. subst. unfold kv_lt, sv_lt. cbn.
      intros H1 H2. apply (no_negtrans _ _ NL) with y; auto.
  Qed.
  Lemma sort_ok : forall k l s l' s', sort_by_dict k l s = Ok l' s' ->
    s' = s /\ Permutation l' l /\
    forall ok, NumOrder NO ok -> (forall r, In r l -> scalar_key ok k s r) ->
      asc k s l' /\
      forall x, ok x -> filter (fun r => match key_of k (heap s r) with Some (SV1 y) => neqb x y | _ => false end) l' =
                filter (fun r => match key_of k (heap s r) with Some (SV1 y) => neqb x y | _ => false end) l.
  Proof.
    intros k l s l' s' H. unfold sort_by_dict in H. bd H kv s1 R. apply read_keys_ok in R. destruct R as (-> & <- & F).
    destruct (comparable (map fst kv)); [|apply raise_ok in H; contradiction]. apply ret_ok in H. destruct H as [-> ->].
    split; auto. split; [apply Permutation_map, sort_by_perm|]. intros ok NL K.
    assert (P : Forall (fun p : sval * nat => exists x, fst p = SV1 x /\ ok x) kv).
    { apply Forall_forall. intros p Hp. destruct (K (snd p)) as (x & E & Hx); [apply in_map; auto|].
      rewrite Forall_forall in F. rewrite (F _ Hp) in E. inversion E. eauto. }
    split.
    - apply map_snd_sorted.
      + apply Forall_forall. intros p Hp. rewrite Forall_forall in F. apply F. eapply Permutation_in; [apply sort_by_perm|exact Hp].
      + eapply sort_by_sorted; [apply kv_weak_order; eauto|exact P].
    - intros x Hx. set (f := fun r : nat => match key_of k (heap s r) with Some (SV1 y) => neqb x y | _ => false end).
      assert (C : forall m : list (sval * nat), filter f (map snd m) = map snd (filter (fun p => f (snd p)) m)).
      { induction m as [|p m IH]; cbn; auto. destruct (f (snd p)); cbn; congruence. }
      rewrite !C. f_equal. apply sort_by_stable. intros p p' Hp Hp' E E'. rewrite Forall_forall in F, P.
      destruct (P _ Hp) as (y & Ey & Oy). destruct (P _ Hp') as (y' & Ey' & Oy').
      unfold f in E, E'. rewrite (F _ Hp), Ey in E. rewrite (F _ Hp'), Ey' in E'.
      unfold kv_lt. rewrite Ey, Ey'. cbn. apply (no_eq _ _ NL) in E; auto. apply (no_eq _ _ NL) in E'; auto.
      apply (no_negtrans _ _ NL) with x; tauto.
  Qed.
  Lemma sort_safe : forall ok k l s, (forall r, In r l -> scalar_key ok k s r) ->
    exists l', sort_by_dict k l s = Ok l' s.
  Proof.
    intros ok k l s K.
    assert (X : exists vs, Forall2 (fun r v => key_of k (heap s r) = Some v) l vs /\ Forall (fun v => exists x, v = SV1 x) vs).
    { clear -K. induction l as [|r l IH]; [exists []; auto|].
      destruct IH as (vs & F & G); [intros; apply K; right; auto|]. destruct (K r) as (x & E & _); [left; auto|].
      exists (SV1 x :: vs). split; constructor; eauto. }
    destruct X as (vs & F & G). unfold sort_by_dict, bind. rewrite (read_keys_run _ _ _ _ F).
    assert (L : length vs = length l) by (symmetry; eapply Forall2_length; eauto).
    assert (E : map fst (combine vs l) = vs).
    { clear -L. revert l L. induction vs; intros [|r l] L; cbn in *; try discriminate; auto. rewrite IHvs; auto. }
    rewrite E. assert (C : comparable vs = true).
    { destruct vs as [|v [|w vs']]; auto. inversion G as [|? ? (x & ->) G']; subst. cbn [comparable].
      apply forallb_forall. intros u Hu. rewrite Forall_forall in G. destruct (G _ Hu) as (y & ->). reflexivity. }
    rewrite C. eexists. reflexivity.
  Qed.
  (** Lists of numbers are comparable as well. *)
  Lemma sort_safe_lists : forall k l s, (forall r, In r l -> exists v, key_of k (heap s r) = Some (SVL v)) ->
    exists l', sort_by_dict k l s = Ok l' s.
  Proof.
    intros k l s K.
    assert (X : exists vs, Forall2 (fun r v => key_of k (heap s r) = Some v) l vs /\ Forall (fun v => exists x, v = SVL x) vs).
    { clear -K. induction l as [|r l IH]; [exists []; auto|].
      destruct IH as (vs & F & G); [intros; apply K; right; auto|]. destruct (K r) as (x & E); [left; auto|].
      exists (SVL x :: vs). split; constructor; eauto. }
    destruct X as (vs & F & G). unfold sort_by_dict, bind. rewrite (read_keys_run _ _ _ _ F).
    assert (L : length vs = length l) by (symmetry; eapply Forall2_length; eauto).
    assert (E : map fst (combine vs l) = vs).
    { clear -L. revert l L. induction vs; intros [|r l] L; cbn in *; try discriminate; auto. rewrite IHvs; auto. }
    rewrite E. assert (C : comparable vs = true).
    { destruct vs as [|v [|w vs']]; auto. inversion G as [|? ? (x & ->) G']; subst. cbn [comparable].
      apply forallb_forall. intros u Hu. rewrite Forall_forall in G. destruct (G _ Hu) as (y & ->). reflexivity. }
    rewrite C. eexists. reflexivity.
  Qed.
  Lemma asc_last : forall ok k s l b r x y, NumOrder NO ok -> asc k s (l ++ [b]) -> In r (l ++ [b]) ->
    key_of k (heap s r) = Some (SV1 x) -> key_of k (heap s b) = Some (SV1 y) -> ok y -> nltb y x = false.
  Proof.
    intros ok k s l b r x y NL H Hr Ex Ey Oy. induction l as [|a l IH]; cbn [app] in *.
    - destruct Hr as [<-|[]]. rewrite Ex in Ey. inversion Ey; subst. apply (no_irrefl _ _ NL); auto.
    - inversion H; subst. destruct Hr as [<-|Hr]; [|auto]. rewrite Forall_forall in H3.
      assert (Hb : In b (l ++ [b])) by (apply in_or_app; right; left; auto). specialize (H3 _ Hb). unfold key_lt in H3. rewrite Ex, Ey in H3. exact H3.
  Qed.
  Lemma asc_nth : forall ok k s l i j a b x y, NumOrder NO ok -> asc k s l -> (i <= j)%nat -> nth_error l i = Some a -> nth_error l j = Some b ->
    key_of k (heap s a) = Some (SV1 x) -> key_of k (heap s b) = Some (SV1 y) -> ok y -> nltb y x = false.
  Proof.
    intros ok k s l i j a b x y NL H. revert i j. induction H as [|c l H IH F]; intros i j Hij Ha Hb Ex Ey Oy.
    - destruct i; discriminate.
    - destruct i; cbn in Ha.
      + inversion Ha; subst. destruct j; cbn in Hb; [inversion Hb; subst; rewrite Ex in Ey; inversion Ey; subst; apply (no_irrefl _ _ NL); auto|].
        apply nth_error_In in Hb. rewrite Forall_forall in F. specialize (F _ Hb). unfold key_lt in F. rewrite Ex, Ey in F. exact F.
      + destruct j; [lia|]. cbn in Hb. apply (IH i j); auto; lia.
  Qed.
  Lemma asc_heap : forall k s s' l, (forall r, In r l -> key_of k (heap s' r) = key_of k (heap s r)) -> asc k s l -> asc k s' l.
  Proof.
    intros k s s' l E H. induction H as [|a l H IH F]; constructor.
    - apply IH. intros. apply E. right; auto.
    - rewrite Forall_forall in *. intros b Hb. specialize (F b Hb). unfold key_lt in *. rewrite !E; auto; [left; auto|right; auto].
  Qed.

  (** *** Equal genotypes *)
  Lemma genotypes_run : forall l s, genotypes l s = Ok (map (fun r => genotype (heap s r)) l) s.
  Proof.
    induction l as [|r l IH]; intros s; [reflexivity|]. unfold genotypes in *. cbn [mmap map].
    unfold bind at 1. unfold get, bind at 1. unfold ret at 1. unfold bind. rewrite IH. reflexivity.
  Qed.
  (** Two positions of the list hold equal genotypes. *)
  Definition repeated (gs : list (list gv)) : Prop :=
    exists i j g h, (i < j)%nat /\ nth_error gs i = Some g /\ nth_error gs j = Some h /\ gvs_eqb g h = true.
  Lemma gen_mem_iff : forall g l, gen_mem g l = true <-> exists j h, nth_error l j = Some h /\ gvs_eqb g h = true.
  Proof.
    intros g l. induction l as [|h l IH]; cbn [gen_mem].
    - split; [discriminate|]. intros ([|j] & h & E & _); discriminate.
    - rewrite orb_true_iff, IH. split.
      + intros [E|(j & h' & E & E')]; [exists O, h; auto|exists (S j), h'; auto].
      + intros ([|j] & h' & E & E'); cbn in E; [inversion E; subst; auto|right; eauto].
  Qed.
  Lemma has_dup_iff : forall gs, has_dup gs = true <-> repeated gs.
  Proof.
    induction gs as [|g gs IH]; cbn [has_dup].
    - split; [discriminate|]. intros ([|i] & j & a & b & _ & E & _); discriminate.
    - rewrite orb_true_iff, gen_mem_iff, IH. split.
      + intros [(j & h & E & E')|(i & j & a & b & Hij & E1 & E2 & E3)].
        * exists O, (S j), g, h. repeat split; auto; lia.
        * exists (S i), (S j), a, b. repeat split; auto; lia.
      + intros (i & j & a & b & Hij & E1 & E2 & E3). destruct j as [|j]; [lia|]. destruct i as [|i]; cbn in E1, E2.
        * inversion E1; subst. left; eauto.
        * right. exists i, j, a, b. repeat split; auto; lia.
  Qed.
  Lemma first_equal_some : forall g l pos p, first_equal g l pos = Some p ->
    exists j h, p = (pos + j)%nat /\ nth_error l j = Some h /\ gvs_eqb g h = true /\
      forall j' h', (j' < j)%nat -> nth_error l j' = Some h' -> gvs_eqb g h' = false.
  Proof.
    intros g l. induction l as [|h l IH]; intros pos p H; cbn [first_equal] in H; [discriminate|].
    destruct (gvs_eqb g h) eqn:E.
    - inversion H; subst. exists O, h. repeat split; auto. intros; lia.
    - destruct (IH _ _ H) as (j & h' & -> & E1 & E2 & E3). exists (S j), h'. split; [lia|]. do 2 (split; auto).
      intros [|j'] h2 Hj Hn; cbn in Hn; [inversion Hn; subst; auto|eapply E3; eauto; lia].
  Qed.
  Lemma first_equal_none : forall g l pos, first_equal g l pos = None -> gen_mem g l = false.
  Proof.
    intros g l. induction l as [|h l IH]; intros pos H; cbn [first_equal gen_mem] in *; auto.
    destruct (gvs_eqb g h); [discriminate|]. cbn. eauto.
  Qed.
  Lemma first_duplicate_some : forall l pos p, first_duplicate l pos = Some p ->
    exists i j g h, (i < j)%nat /\ p = (pos + j)%nat /\ nth_error l i = Some g /\ nth_error l j = Some h /\ gvs_eqb g h = true /\
      (forall j' h', (i < j' < j)%nat -> nth_error l j' = Some h' -> gvs_eqb g h' = false) /\
      (forall i' j' g' h', (i' < i)%nat -> (i' < j')%nat -> nth_error l i' = Some g' -> nth_error l j' = Some h' -> gvs_eqb g' h' = false).
  Proof.
    induction l as [|g l IH]; intros pos p H; cbn [first_duplicate] in H; [discriminate|].
    destruct (first_equal g l (S pos)) as [p'|] eqn:E.
    - inversion H; subst. apply first_equal_some in E. destruct E as (j & h & -> & E1 & E2 & E3).
      exists O, (S j), g, h. split; [lia|]. split; [lia|]. do 3 (split; auto). split; [|intros; lia].
      intros [|j'] h' Hj Hn; [lia|]. cbn in Hn. eapply E3; eauto. lia.
    - apply first_equal_none in E. apply IH in H. destruct H as (i & j & a & b & Hij & -> & E1 & E2 & E3 & E4 & E5).
      exists (S i), (S j), a, b. split; [lia|]. split; [lia|]. do 3 (split; auto). split.
      + intros [|j'] h' Hj Hn; [lia|]. cbn in Hn. apply (E4 j' h'); auto. lia.
      + intros [|i'] [|j'] g' h' Hi Hj Hn Hm; try lia; cbn in Hn, Hm.
        * inversion Hn; subst. destruct (gvs_eqb g' h') eqn:C; auto.
          assert (gen_mem g' l = true) by (apply gen_mem_iff; eauto). congruence.
        * apply (E5 i' j'); auto; lia.
  Qed.
  Lemma first_duplicate_none : forall l pos, first_duplicate l pos = None -> has_dup l = false.
  Proof.
    induction l as [|g l IH]; intros pos H; cbn [first_duplicate has_dup] in *; auto.
    destruct (first_equal g l (S pos)) eqn:E; [discriminate|]. apply first_equal_none in E. rewrite E. cbn. eauto.
  Qed.
  Lemma nth_error_rev : forall {A} (l : list A) i, (i < length l)%nat -> nth_error (rev l) i = nth_error l (length l - 1 - i).
  Proof.
    intros A l i H. destruct l as [|d l0]; [cbn in H; lia|]. set (m := d :: l0) in *.
    rewrite (nth_error_nth' (rev m) d) by (rewrite rev_length; auto). rewrite (nth_error_nth' m d) by lia.
    f_equal. rewrite rev_nth by auto. f_equal. lia.
  Qed.
  (** The position that the duplicate search finds: the last individual q that repeats
      the genotype of somebody before it, and the nearest such p before q. *)
  Definition repeats (gs : list (list gv)) (p q : nat) : Prop :=
    exists g h, (p < q)%nat /\ nth_error gs p = Some g /\ nth_error gs q = Some h /\ gvs_eqb h g = true.
  Definition doomed (gs : list (list gv)) (p : nat) : Prop :=
    exists q, repeats gs p q /\ (forall p', (p < p')%nat -> ~ repeats gs p' q) /\
      (forall p' q', (q < q')%nat -> ~ repeats gs p' q').
  Lemma doomed_unique : forall gs p p', doomed gs p -> doomed gs p' -> p = p'.
  Proof.
    intros gs p p' (q & R & M1 & M2) (q' & R' & M1' & M2').
    assert (q = q'). { destruct (lt_eq_lt_dec q q') as [[H|H]|H]; auto; [elim (M2 p' q' H R')|elim (M2' p q H R)]. }
    subst q'. destruct (lt_eq_lt_dec p p') as [[H|H]|H]; auto; [elim (M1 p' H R')|elim (M1' p H R)].
  Qed.
  Lemma doomed_bound : forall gs p, doomed gs p -> (S p < length gs)%nat.
  Proof.
    intros gs p (q & (g & h & Hpq & _ & Hq & _) & _). assert (q < length gs)%nat by (apply nth_error_Some; congruence). lia.
  Qed.
  Lemma delete_duplicate_ok : forall (els : list nat) gs, length gs = length els ->
    (has_dup (rev gs) = false /\ delete_duplicate els gs = els \/
     exists p, doomed gs p /\ delete_duplicate els gs = remove_at p els).
  Proof.
    intros els gs L. unfold delete_duplicate. destruct (first_duplicate (rev gs) 0) as [p|] eqn:E.
    - right. apply first_duplicate_some in E. destruct E as (i & j & g & h & Hij & -> & E1 & E2 & E3 & E4 & E5).
      assert (Hj : (j < length gs)%nat) by (rewrite <- rev_length; apply nth_error_Some; congruence).
      rewrite nth_error_rev in E1, E2 by lia. exists (length gs - 1 - j)%nat. split; [|rewrite L; reflexivity].
      exists (length gs - 1 - i)%nat. split; [|split].
      + exists h, g. repeat split; auto; lia.
      + intros p' Hp (g' & h' & Hlt & Hn & Hm & Eq). rewrite E1 in Hm. inversion Hm; subst h'.
        assert (Hp' : (p' < length gs)%nat) by (apply nth_error_Some; congruence).
        rewrite (E4 (length gs - 1 - p')%nat g') in Eq; [discriminate|lia|]. rewrite nth_error_rev by lia.
        replace (length gs - 1 - (length gs - 1 - p'))%nat with p' by lia. auto.
      + intros p' q' Hq (g' & h' & Hlt & Hn & Hm & Eq).
        assert (Hq' : (q' < length gs)%nat) by (apply nth_error_Some; congruence).
        rewrite (E5 (length gs - 1 - q')%nat (length gs - 1 - p')%nat h' g') in Eq; [discriminate|lia|lia| |]; rewrite nth_error_rev by lia;
          [replace (length gs - 1 - (length gs - 1 - q'))%nat with q' by lia|replace (length gs - 1 - (length gs - 1 - p'))%nat with p' by lia]; auto.
    - left. split; auto. eapply first_duplicate_none; eauto.
  Qed.
  Lemma gvs_eqb_sym : forall ok, NumOrder NO ok -> forall a b, Forall (gene_ok (ok := ok)) a -> Forall (gene_ok (ok := ok)) b ->
    gvs_eqb a b = true -> gvs_eqb b a = true.
  Proof.
    intros ok NL. induction a as [|x a IH]; intros [|y b] Ha Hb H; cbn [gvs_eqb] in *; try discriminate; auto.
    inversion Ha; inversion Hb; subst. apply andb_true_iff in H. destruct H as [D1 D2].
    apply andb_true_iff. split; [apply (gv_eqb_sym NL); auto|auto].
  Qed.
  Lemma repeated_rev : forall ok, NumOrder NO ok -> forall gs, Forall (Forall (gene_ok (ok := ok))) gs -> repeated gs -> repeated (rev gs).
  Proof.
    intros ok NL gs F (i & j & g & h & Hij & E1 & E2 & E3).
    assert (Hj : (j < length gs)%nat) by (apply nth_error_Some; congruence).
    exists (length gs - 1 - j)%nat, (length gs - 1 - i)%nat, h, g. split; [lia|].
    rewrite !nth_error_rev by lia. replace (length gs - 1 - (length gs - 1 - j))%nat with j by lia.
    replace (length gs - 1 - (length gs - 1 - i))%nat with i by lia. repeat split; auto.
    rewrite Forall_forall in F. apply (gvs_eqb_sym _ NL); auto; apply F; eapply nth_error_In; eauto.
  Qed.

  (** *** The individuals taken over *)
  Definition genos (s : st) (l : list nat) : list (list gv) := map (fun r => genotype (heap s r)) l.
  (** The last m elements. *)
  Definition top {A} (m : nat) (l : list A) : list A := skipn (length l - m) l.

  (** One element of [tp] whose genotype is repeated further up is dropped, and
      enough members of [l] at random positions come first. *)
  Definition one_replaced (s : st) (need : nat) (l tp els : list nat) : Prop :=
    exists p smp, doomed (genos s tp) p /\ els = smp ++ remove_at p tp /\ picks (need - (length tp - 1)) l smp.

  Lemma sample_ok : forall {A} (l : list A) k s smp s', sample l k s = Ok smp s' ->
    0 <= k <= Z.of_nat (length l) /\ picks (Z.to_nat k) l smp /\ s' = set_tape (tape s') s.
  Proof.
    intros A l k s smp s' H.
    assert (D : 0 <= k <= Z.of_nat (length l)).
    { destruct (Z_lt_le_dec k 0); [rewrite sample_error in H by auto; discriminate|].
      destruct (Z_lt_le_dec (Z.of_nat (length l)) k); [rewrite sample_error in H by auto; discriminate|lia]. }
    split; auto. eapply possible_sound in H; [|apply possible_sample; auto]. exact H.
  Qed.
  Lemma remove_at_len : forall {A} (l : list A) p, (p < length l)%nat -> length (remove_at p l) = (length l - 1)%nat.
  Proof. intros. apply remove_at_length. auto. Qed.

  Lemma top_length : forall {A} m (l : list A), length (top m l) = Nat.min m (length l).
  Proof. intros. unfold top. rewrite skipn_length. lia. Qed.
  Lemma add_best_ok : forall l k nch s els s', 0 < k -> add_best l k nch s = Ok els s' ->
    s' = set_tape (tape s') s /\
    let tp := top (Z.to_nat k + 1) l in
    (has_dup (genos s tp) = false -> els = tp) /\
    (has_dup (genos s tp) = true ->
       has_dup (rev (genos s tp)) = false /\ (exists smp, picks (Z.to_nat k + 1 - length tp) l smp /\ els = smp ++ tp) \/
       one_replaced s (Z.to_nat k + 1) l tp els).
  Proof.
    intros l k nch s els s' Hk H. unfold add_best in H. rewrite slice_from_neg in H by lia. fold (top (Z.to_nat k + 1) l) in H.
    set (tp := top (Z.to_nat k + 1) l) in *. cbn [add_best_loop] in H. unfold bind at 1 in H. rewrite genotypes_run in H.
    fold (genos s tp) in H. cbv zeta. destruct (has_dup (genos s tp)) eqn:D; cbn [negb] in H.
    - change (0 + 1) with 1 in H. destruct (- k - 1 - 1 <? 0) eqn:E; [|apply Z.ltb_ge in E; lia].
      bd H smp s1 R. apply ret_ok in H. destruct H as [-> ->]. apply sample_ok in R. destruct R as (D1 & P & Es).
      split; auto. split; [intros C; discriminate C|]. intros _. assert (Ltp : (length tp <= Z.to_nat k + 1)%nat) by (unfold tp; rewrite top_length; lia).
      destruct (delete_duplicate_ok tp (genos s tp)) as [[N Ed]|(p & Dm & Ed)];
        [unfold genos; apply map_length| |]; rewrite Ed in *.
      + left. split; auto. exists smp. split; auto.
        replace (Z.to_nat k + 1 - length tp)%nat with (Z.to_nat (k + 1 - Z.of_nat (length tp))) by lia. exact P.
      + right. exists p, smp. do 2 (split; auto).
        assert (Hp : (S p < length tp)%nat) by (apply doomed_bound in Dm; unfold genos in Dm; rewrite map_length in Dm; auto).
        rewrite remove_at_len in P by lia.
        replace (Z.to_nat k + 1 - (length tp - 1))%nat with (Z.to_nat (k + 1 - Z.of_nat (length tp - 1))) by lia. exact P.
    - apply ret_ok in H. destruct H as [-> ->]. split; [destruct s; reflexivity|]. split; [auto|intros C; discriminate C].
  Qed.
  (** Exactly the possible results when the genes are comparable. *)
  Lemma add_best_possible : forall ok, NumOrder NO ok -> forall l k nch s, 0 < k ->
    Forall (Forall (gene_ok (ok := ok))) (genos s l) -> k + 2 <= 2 * Z.of_nat (length l) ->
    let tp := top (Z.to_nat k + 1) l in
    possible_in s (add_best l k nch)
      (fun els => if has_dup (genos s tp) then one_replaced s (Z.to_nat k + 1) l tp els else els = tp).
  Proof.
    intros ok NL l k nch s Hk F Hl tp. unfold add_best. rewrite slice_from_neg by lia. fold (top (Z.to_nat k + 1) l). fold tp.
    cbn [add_best_loop].
    assert (Ltp : length tp = Nat.min (Z.to_nat k + 1) (length l)) by (unfold tp; apply top_length).
    eapply possible_in_iff.
    - apply possible_in_bind with (R := fun gs => gs = genos s tp).
      + apply possible_in_pure. intros t. apply genotypes_run.
      + intros gs ->. instantiate (1 := fun gs els => if has_dup gs then one_replaced s (Z.to_nat k + 1) l tp els else els = tp).
        cbv beta. destruct (has_dup (genos s tp)) eqn:D; cbn [negb]; [|apply possible_in_of; apply (possible_ret tp)].
        change (0 + 1) with 1. destruct (- k - 1 - 1 <? 0) eqn:E; [|apply Z.ltb_ge in E; lia].
        destruct (delete_duplicate_ok tp (genos s tp)) as [[N _]|(p & Dm & Ed)]; [unfold genos; apply map_length| |].
        * exfalso. assert (C : repeated (rev (genos s tp))).
          { apply (repeated_rev _ NL); [|apply has_dup_iff; auto]. rewrite Forall_forall in *. intros g Hg. apply F.
            unfold genos in *. apply in_map_iff in Hg. destruct Hg as (r & <- & Hr). apply in_map_iff. exists r. split; auto.
            unfold tp, top in Hr. rewrite <- (firstn_skipn (length l - (Z.to_nat k + 1)) l). apply in_or_app; auto. }
          apply has_dup_iff in C. congruence.
        * rewrite Ed. assert (Hp : (S p < length tp)%nat) by (apply doomed_bound in Dm; unfold genos in Dm; rewrite map_length in Dm; auto).
          rewrite remove_at_len by lia. eapply possible_in_iff.
          -- apply possible_in_bind; [apply possible_in_of, possible_sample; lia|]. intros smp P. apply possible_in_of, possible_ret.
          -- intros els. cbv beta. split.
             ++ intros (smp & P & ->). exists p, smp. do 2 (split; auto).
                replace (Z.to_nat k + 1 - (length tp - 1))%nat with (Z.to_nat (k + 1 - Z.of_nat (length tp - 1))) by lia. exact P.
             ++ intros (p' & smp & Dm' & -> & P). rewrite (doomed_unique _ _ _ Dm' Dm). exists smp. split; auto.
                replace (Z.to_nat (k + 1 - Z.of_nat (length tp - 1))) with (Z.to_nat k + 1 - (length tp - 1))%nat by lia. exact P.
    - intros els. cbv beta. split; [intros (gs & -> & H); exact H|intros H; eauto].
  Qed.

  Lemma add_random_loop_ok : forall fuel l k nch lc e s els s', picks (Z.to_nat k) (slice_to l (-1)) e ->
    add_random_loop fuel l k nch lc e s = Ok els s' -> s' = set_tape (tape s') s /\ picks (Z.to_nat k) (slice_to l (-1)) els.
  Proof.
    induction fuel as [|f IH]; intros l k nch lc e s els s' P H; cbn [add_random_loop] in H; [apply nofuel_ok in H; contradiction|].
    unfold is_duplicate in H. bd H d s1 R. unfold bind at 1 in R. rewrite genotypes_run in R. apply ret_ok in R. destruct R as [-> ->].
    destruct (has_dup _); cbn [negb] in H.
    - bd H e1 s1 R. apply sample_ok in R. destruct R as (_ & P1 & E1). destruct (nch <=? lc + 1).
      + apply ret_ok in H. destruct H as [-> ->]. auto.
      + apply IH in H; auto. destruct H as [E2 P2]. split; auto. rewrite E2, E1. reflexivity.
    - apply ret_ok in H. destruct H as [-> ->]. split; auto. destruct s; reflexivity.
  Qed.
  Lemma add_random_ok : forall l k nch s els s', add_random l k nch s = Ok els s' ->
    s' = set_tape (tape s') s /\ exists l0 b e, l = l0 ++ [b] /\ picks (Z.to_nat k) l0 e /\ els = e ++ [b] /\ 0 <= k <= Z.of_nat (length l0).
  Proof.
    intros l k nch s els s' H. unfold add_random in H. bd H e s1 R. apply sample_ok in R. destruct R as (D & P & E1).
    bd H e' s2 R. apply add_random_loop_ok in R; auto. destruct R as [E2 P2].
    bd H b s3 R. apply lift_opt_ok in R. destruct R as [R ->]. apply ret_ok in H. destruct H as [-> ->].
    split; [rewrite E2, E1; reflexivity|]. destruct l as [|a l] using rev_ind; [discriminate|]. clear IHl.
    rewrite py_nth_last in R. inversion R; subst. rewrite slice_to_last in P2, D. exists l, b, e'. repeat split; auto; lia.
  Qed.
  (** Random transfer: exactly the selections of k positions other than the last. *)
  Lemma add_random_loop_possible : forall fuel l k nch lc e s, 0 <= k <= Z.of_nat (length (slice_to l (-1))) ->
    (Z.to_nat (nch - lc) < fuel)%nat -> picks (Z.to_nat k) (slice_to l (-1)) e ->
    possible_in s (add_random_loop fuel l k nch lc e)
      (fun els => if has_dup (genos s e) then picks (Z.to_nat k) (slice_to l (-1)) els else els = e).
  Proof.
    induction fuel as [|f IH]; intros l k nch lc e s Hk Hf P; [lia|]. cbn [add_random_loop]. eapply possible_in_iff.
    - apply possible_in_bind with (R := fun d => d = has_dup (genos s e)).
      + apply possible_in_pure. intros t. unfold is_duplicate, bind. rewrite genotypes_run. reflexivity.
      + intros d ->. instantiate (1 := fun d els => if d then picks (Z.to_nat k) (slice_to l (-1)) els else els = e).
        cbv beta. destruct (has_dup (genos s e)); cbn [negb].
        * eapply possible_in_iff.
          -- apply possible_in_bind; [apply possible_in_of, possible_sample; auto|]. intros e1 P1.
             instantiate (1 := fun e1 els => if (nch <=? lc + 1) then els = e1 else
                if has_dup (genos s e1) then picks (Z.to_nat k) (slice_to l (-1)) els else els = e1).
             destruct (nch <=? lc + 1) eqn:E; [apply possible_in_of, possible_ret|].
             apply Z.leb_gt in E. apply IH; auto. lia.
          -- intros els. cbv beta. split.
             ++ intros (e1 & P1 & H). destruct (nch <=? lc + 1); [subst; auto|]. destruct (has_dup (genos s e1)); [auto|subst; auto].
             ++ intros H. exists els. split; auto. destruct (nch <=? lc + 1); auto. destruct (has_dup (genos s els)); auto.
        * apply possible_in_of, possible_ret.
    - intros els. cbv beta. split; [intros (d & -> & H); exact H|]. intros H. exists (has_dup (genos s e)). auto.
  Qed.
  Lemma add_random_possible : forall l0 b k nch s, 0 <= k <= Z.of_nat (length l0) ->
    possible_in s (add_random (l0 ++ [b]) k nch) (fun els => exists e, picks (Z.to_nat k) l0 e /\ els = e ++ [b]).
  Proof.
    intros l0 b k nch s Hk. unfold add_random. rewrite slice_to_last. eapply possible_in_iff.
    - apply possible_in_bind with (R := picks (Z.to_nat k) l0)
        (R' := fun e els => exists e', (if has_dup (genos s e) then picks (Z.to_nat k) l0 e' else e' = e) /\ els = e' ++ [b]);
        [apply possible_in_of, possible_sample; auto|]. intros e P.
      apply possible_in_bind with (R := fun e' => if has_dup (genos s e) then picks (Z.to_nat k) l0 e' else e' = e) (R' := fun e' els => els = e' ++ [b]).
      + pose proof (add_random_loop_possible (S (Z.to_nat nch)) (l0 ++ [b]) k nch 0 e s) as K.
        rewrite slice_to_last in K. apply K; auto; lia.
      + intros e' P'. rewrite py_nth_last. apply possible_in_of. eapply possible_iff.
        * apply possible_bind with (R := fun x => x = b) (R' := fun x els => els = e' ++ [x]); [apply (possible_ret b)|]. intros x ->. apply possible_ret.
        * intros a. split; [intros (x & -> & ->); auto|intros ->; exists b; auto].
    - intros els. cbv beta. split.
      + intros (e & P & e' & H & ->). exists e'. split; auto. destruct (has_dup (genos s e)); [auto|subst; auto].
      + intros (e & P & ->). exists e. split; auto. exists e. split; auto. destruct (has_dup (genos s e)); auto.
  Qed.

  (** *** The replacement of the generation (NewGeneration) *)
  (** What is taken over from the sorted old population [l] when [k] individuals are missing. *)
  Definition taken (s : st) (tr : transfer) (k : Z) (l els : list nat) : Prop :=
    if 0 <? k then
      match tr with
      | TBest =>
          let tp := top (Z.to_nat k + 1) l in
          (has_dup (genos s tp) = false -> els = tp) /\
          (has_dup (genos s tp) = true ->
             has_dup (rev (genos s tp)) = false /\ (exists smp, picks (Z.to_nat k + 1 - length tp) l smp /\ els = smp ++ tp) \/
             one_replaced s (Z.to_nat k + 1) l tp els)
      | TRandom => exists l0 b e, l = l0 ++ [b] /\ picks (Z.to_nat k) l0 e /\ els = e ++ [b] /\ k <= Z.of_nat (length l0)
      end
    else exists l0 b, l = l0 ++ [b] /\ els = [b].
  Definition sorted_from (k : skey) (p : pop) (s : st) (l : list nat) : Prop :=
    if is_sorted p then l = members p else sort_by_dict k (members p) s = Ok l s.
  Definition with_next (l : list nat) (gd : gadata) : gadata :=
    set_children l (set_population (set_sorted false (set_members l (population gd))) gd).

  Lemma sorted_from_perm : forall k p s l, sorted_from k p s l -> Permutation l (members p).
  Proof.
    intros k p s l H. unfold sorted_from in H. destruct (is_sorted p); [subst; auto|]. apply sort_ok in H. tauto.
  Qed.
  Lemma newgen_single_ok : forall ng gd s gd' s', ng_multi ng = false -> newgen_execute ng gd s = Ok gd' s' ->
    exists l els, sorted_from KScore (population gd) s l /\
      taken s (ng_transfer ng) (num_individ (population gd) - Z.of_nat (length (children gd))) l els /\
      s' = set_tape (tape s') s /\ gd' = with_next (children gd ++ els) gd.
  Proof.
    intros ng gd s gd' s' M H. unfold newgen_execute in H. rewrite M in H. bd H l s1 R.
    assert (S1 : sorted_from KScore (population gd) s l /\ s1 = s).
    { unfold sorted_from. destruct (is_sorted (population gd)); [apply ret_ok in R; tauto|]. pose proof (sort_ok _ _ _ _ _ R) as (-> & _). auto. }
    clear R. destruct S1 as [S1 ->]. exists l. unfold taken.
    set (k := num_individ (population gd) - Z.of_nat (length (children gd))) in *. bd H nx s1 R. apply ret_ok in H. destruct H as [-> ->].
    destruct (0 <? k) eqn:E.
    - apply Z.ltb_lt in E. unfold add_parents in R. rewrite M in R. bd R els s2 R1. apply ret_ok in R. destruct R as [-> ->].
      exists els. split; auto. destruct (ng_transfer ng).
      + apply add_best_ok in R1; auto. destruct R1 as [R1 R2]. auto.
      + apply add_random_ok in R1. destruct R1 as [R1 (l0 & b & e & -> & P & -> & D)]. split; [|auto]. exists l0, b, e. repeat split; auto. lia.
    - bd R b s2 R1. apply lift_opt_ok in R1. destruct R1 as [R1 ->]. apply ret_ok in R. destruct R as [-> ->].
      exists [b]. split; auto. split; [|split; [destruct s; reflexivity|reflexivity]].
      destruct l as [|a l] using rev_ind; [discriminate|]. rewrite py_nth_last in R1. inversion R1; subst. eauto.
  Qed.
  Lemma top_snoc : forall {A} m (l : list A) b, (1 <= m)%nat -> exists t, top m (l ++ [b]) = t ++ [b] /\ incl t l.
  Proof.
    intros A m l b Hm. unfold top. rewrite app_length. cbn [length]. rewrite skipn_last by lia.
    exists (skipn (length l + 1 - m) l). split; auto. intros x Hx. rewrite <- (firstn_skipn (length l + 1 - m) l). apply in_or_app; auto.
  Qed.
  Lemma top_incl : forall {A} m (l : list A), incl (top m l) l.
  Proof. intros A m l x Hx. unfold top in Hx. rewrite <- (firstn_skipn (length l - m) l). apply in_or_app; auto. Qed.
  Lemma remove_at_snoc : forall {A} p (t : list A) b, (p < length t)%nat -> remove_at p (t ++ [b]) = remove_at p t ++ [b].
  Proof.
    intros A p t b Hp. unfold remove_at. rewrite firstn_app. replace (p - length t)%nat with 0%nat by lia. cbn [firstn]. rewrite app_nil_r.
    rewrite skipn_last by lia. rewrite app_assoc. reflexivity.
  Qed.
  Lemma remove_at_incl : forall {A} p (t : list A), incl (remove_at p t) t.
  Proof.
    intros A p t x Hx. unfold remove_at in Hx. apply in_app_or in Hx. destruct Hx as [Hx|Hx].
    - rewrite <- (firstn_skipn p t). apply in_or_app; auto.
    - rewrite <- (firstn_skipn (S p) t). apply in_or_app; auto.
  Qed.
  (** Everything taken over is an old member, and the last taken over is the last of the sorted list. *)
  Lemma taken_snoc : forall s tr k l0 b els, taken s tr k (l0 ++ [b]) els ->
    exists e, els = e ++ [b] /\ incl e (l0 ++ [b]).
  Proof.
    intros s tr k l0 b els H. unfold taken in H. destruct (0 <? k).
    - destruct tr.
      + destruct H as [H1 H2]. cbv zeta in *. destruct (top_snoc (Z.to_nat k + 1) l0 b) as (t & Et & It); [lia|].
        destruct (has_dup (genos s (top (Z.to_nat k + 1) (l0 ++ [b])))) eqn:D.
        * destruct (H2 eq_refl) as [[_ (smp & P & ->)]|(p & smp & Dm & -> & P)].
          -- rewrite Et. exists (smp ++ t). rewrite app_assoc. split; auto. intros x Hx. apply in_app_or in Hx.
             destruct Hx as [Hx|Hx]; [eapply picks_incl; eauto|apply in_or_app; left; auto].
          -- apply doomed_bound in Dm. unfold genos in Dm. rewrite map_length in Dm. rewrite Et in *.
             rewrite app_length in Dm. cbn [length] in Dm. rewrite remove_at_snoc by lia. exists (smp ++ remove_at p t).
             rewrite app_assoc. split; auto. intros x Hx. apply in_app_or in Hx.
             destruct Hx as [Hx|Hx]; [eapply picks_incl; eauto|]. apply in_or_app. left. apply It. eapply remove_at_incl; eauto.
        * rewrite H1 by auto. rewrite Et. exists t. split; auto. intros x Hx. apply in_or_app; auto.
      + destruct H as (l1 & b1 & e & El & P & -> & _). apply app_inj_tail in El. destruct El as [-> ->]. exists e. split; auto.
        intros x Hx. apply in_or_app. left. eapply picks_incl; eauto.
    - destruct H as (l1 & b1 & El & ->). apply app_inj_tail in El. destruct El as [-> ->]. exists []. split; auto. intros x [].
  Qed.
  Lemma taken_length : forall s tr k l els, taken s tr k l els -> (k < Z.of_nat (length l))%Z ->
    length els = if 0 <? k then (Z.to_nat k + 1)%nat else 1%nat.
  Proof.
    intros s tr k l els H Hl. unfold taken in H. destruct (0 <? k) eqn:E; [apply Z.ltb_lt in E|].
    - destruct tr.
      + destruct H as [H1 H2]. cbv zeta in *. assert (Lt : length (top (Z.to_nat k + 1) l) = (Z.to_nat k + 1)%nat) by (rewrite top_length; lia).
        destruct (has_dup (genos s (top (Z.to_nat k + 1) l))) eqn:D; [|rewrite H1 by auto; auto].
        destruct (H2 eq_refl) as [[_ (smp & P & ->)]|(p & smp & Dm & -> & P)]; apply picks_length in P; rewrite app_length, P; [lia|].
        apply doomed_bound in Dm. unfold genos in Dm. rewrite map_length in Dm. rewrite remove_at_len by lia. lia.
      + destruct H as (l0 & b & e & -> & P & -> & _). apply picks_length in P. rewrite app_length, P. cbn. lia.
    - destruct H as (l0 & b & _ & ->). reflexivity.
  Qed.
  (** No exception. *)
  Lemma newgen_single_safe_sorted : forall ok ng gd s, NumOrder NO ok -> ng_multi ng = false -> members (population gd) <> [] ->
    (exists l, sort_by_dict KScore (members (population gd)) s = Ok l s) ->
    (forall r, In r (members (population gd)) -> Forall (gene_ok (ok := ok)) (genotype (heap s r))) ->
    num_individ (population gd) - Z.of_nat (length (children gd)) < Z.of_nat (length (members (population gd))) ->
    safe (newgen_execute ng gd) s.
  Proof.
    intros ok ng gd s NL M Ne So K Hn. unfold newgen_execute. rewrite M.
    set (k := num_individ (population gd) - Z.of_nat (length (children gd))) in *.
    assert (S1 : exists l, (if is_sorted (population gd) then ret (members (population gd)) else sort_by_dict KScore (members (population gd))) s = Ok l s
      /\ Permutation l (members (population gd))).
    { destruct (is_sorted (population gd)); [eexists; split; [reflexivity|auto]|].
      destruct So as (l & E). exists l. split; auto. apply sort_ok in E. tauto. }
    destruct S1 as (l & E & P). apply safe_bind; [intros e; rewrite E; discriminate|]. intros l' s1 H1. rewrite E in H1. inversion H1; subst l' s1. clear H1.
    pose proof (Permutation_length P) as Lp.
    destruct l as [|a l0 _] using rev_ind; [exfalso; apply Ne; apply Permutation_nil; auto|].
    apply safe_bind; [|intros; apply safe_ret]. destruct (0 <? k) eqn:Ek; [apply Z.ltb_lt in Ek|].
    - unfold add_parents. rewrite M. apply safe_bind; [|intros; apply safe_ret].
      rewrite app_length in Lp. cbn [length] in Lp. destruct (ng_transfer ng); intros e.
      + pose proof (add_best_possible ok NL (l0 ++ [a]) k (Z.of_nat (length (children gd))) s Ek) as X.
        destruct X as [X _].
        * apply Forall_forall. intros g Hg. unfold genos in Hg. apply in_map_iff in Hg. destruct Hg as (r & <- & Hr). apply K. eapply Permutation_in; eauto.
        * rewrite app_length. cbn [length]. lia.
        * destruct (X (tape s)) as (x & t & Ex & _). rewrite set_tape_same in Ex. congruence.
      + destruct (proj1 (add_random_possible l0 a k (Z.of_nat (length (children gd))) s ltac:(lia)) (tape s)) as (x & t & Ex & _). rewrite set_tape_same in Ex. congruence.
    - apply safe_bind; [|intros; apply safe_ret]. eapply safe_lift_opt. apply py_nth_last.
  Qed.
  Lemma newgen_single_safe : forall ok ng gd s, NumOrder NO ok -> ng_multi ng = false -> members (population gd) <> [] ->
    (forall r, In r (members (population gd)) -> scalar_key ok KScore s r /\ Forall (gene_ok (ok := ok)) (genotype (heap s r))) ->
    num_individ (population gd) - Z.of_nat (length (children gd)) < Z.of_nat (length (members (population gd))) ->
    safe (newgen_execute ng gd) s.
  Proof.
    intros ok ng gd s NL M Ne K Hn. apply (newgen_single_safe_sorted ok); auto; [|intros r Hr; apply K; auto].
    apply (sort_safe ok). intros r Hr. apply K; auto.
  Qed.
End NewGenProofs.
