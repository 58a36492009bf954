(** Statement C80: sort_by_dict is Python's stable sort, on numbers and on lists. *)
From Coq Require Import String.
From Coq Require Import ZArith QArith List Bool Lia Permutation Sorting.
From Verif Require Import Spec Num State Population Laws ListLemmas Exec NewGenProofs Demo.
Import ListNotations.
Open Scope list_scope.

(** *** The specification *)
(** [l'] is [l] sorted by the keys [vs], equal keys in their old order: there is an
    arrangement of the positions of [l] in which of any two positions the earlier one has
    the smaller key, or a key not larger and was before the other in [l]. *)
Definition stable_sort {V} (lt : V -> V -> Prop) (vs : list V) (l l' : list nat) : Prop :=
  exists idx, Permutation idx (seq 0 (List.length l)) /\ Forall2 (fun i r => nth_error l i = Some r) idx l' /\
    forall a b i j v w, (a < b)%nat -> nth_error idx a = Some i -> nth_error idx b = Some j -> nth_error vs i = Some v -> nth_error vs j = Some w ->
      lt v w \/ ~ lt w v /\ (i < j)%nat.

Section C80.
  Context {NO : NumOps}.
  (** x < y for lists: the first difference decides, a proper prefix is smaller. *)
  Definition same (x y : num) : Prop := neqb x y = true.
  Definition list_before (a b : list num) : Prop :=
    (exists p y r, b = p ++ y :: r /\ Forall2 same a p) \/
    (exists p q x y r t, a = p ++ x :: r /\ b = q ++ y :: t /\ Forall2 same p q /\ ~ same x y /\ nltb x y = true).
  Definition before (v w : sval) : Prop :=
    match v, w with SV1 x, SV1 y => nltb x y = true | SVL a, SVL b => list_before a b | _, _ => False end.
  Lemma lex_before : forall a b, lex_ltb a b = true <-> list_before a b.
  Proof.
    induction a as [|x a IH]; intros [|y b]; cbn [lex_ltb].
    - split; [discriminate|]. intros [(p & y & r & E & _)|(p & q & x & y & r & t & E & _)]; destruct p; discriminate.
    - split; [|reflexivity]. intros _. left. exists [], y, b. auto.
    - split; [discriminate|]. intros [(p & y & r & E & _)|(p & q & x0 & y & r & t & _ & E & _)]; [destruct p; discriminate|destruct q; discriminate].
    - destruct (neqb x y) eqn:E.
      + rewrite IH. split.
        * intros [(p & z & r & -> & F)|(p & q & z & z' & r & t & -> & -> & F & N & L)].
          -- left. exists (y :: p), z, r. split; [reflexivity|]. constructor; auto.
          -- right. exists (x :: p), (y :: q), z, z', r, t. split; [reflexivity|]. split; [reflexivity|]. split; [constructor; auto|auto].
        * intros [(p & z & r & Eb & F)|(p & q & z & z' & r & t & Ea & Eb & F & N & L)].
          -- inversion F as [|? y' ? p' Exy F']; subst. inversion Eb; subst. left. exists p', z, r. auto.
          -- inversion F as [|x' y' p' q' Exy F']; subst; cbn in Ea, Eb; inversion Ea; inversion Eb; subst; [congruence|]. right. exists p', q', z, z', r, t. auto.
      + split.
        * intros L. right. exists [], [], x, y, a, b. repeat split; auto. unfold same. congruence.
        * intros [(p & z & r & Eb & F)|(p & q & z & z' & r & t & Ea & Eb & F & N & L)].
          -- inversion F as [|? y' ? p' Exy F']; subst. inversion Eb; subst. unfold same in Exy. congruence.
          -- inversion F as [|x' y' p' q' Exy F']; subst; cbn in Ea, Eb; inversion Ea; inversion Eb; subst; [auto|unfold same in Exy; congruence].
  Qed.
  Lemma sv_before : forall v w, sv_lt v w = true <-> before v w.
  Proof. intros [|x|a] [|y|b]; unfold sv_lt; cbn; try (split; [discriminate|intros []]); [reflexivity|apply lex_before]. Qed.

  (** *** The order on keys *)
  Section Order.
    Variable ok : num -> Prop.
    Hypothesis NL : NumOrder NO ok.
    Lemma lex_asym : forall a b, Forall ok a -> Forall ok b -> lex_ltb a b = true -> lex_ltb b a = false.
    Proof.
      induction a as [|x a IH]; intros [|y b] Ha Hb; cbn [lex_ltb]; try discriminate; auto.
      inversion Ha; inversion Hb; subst. destruct (neqb x y) eqn:E.
      - rewrite (eq_sym_n NL _ _ H1 H5 E). apply IH; auto.
      - destruct (neqb y x) eqn:E'; [apply (eq_sym_n NL) in E'; auto; congruence|]. apply (lt_asym NL); auto.
    Qed.
    Lemma lex_negtrans : forall a b c, Forall ok a -> Forall ok b -> Forall ok c -> lex_ltb b a = false -> lex_ltb c b = false -> lex_ltb c a = false.
    Proof.
      induction a as [|x a IH]; intros [|y b] [|z c] Ha Hb Hc; cbn [lex_ltb]; try discriminate; auto.
      inversion Ha as [|? ? Hx Ha']; inversion Hb as [|? ? Hy Hb']; inversion Hc as [|? ? Hz Hc']; subst. destruct (neqb y x) eqn:E1, (neqb z y) eqn:E2; intros L1 L2.
      - rewrite (eq_trans_n NL z y x Hz Hy Hx E2 E1). eapply IH; [| | |exact L1|exact L2]; auto.
      - destruct (neqb z x) eqn:E3.
        + apply (eq_sym_n NL) in E1; auto. rewrite (eq_trans_n NL z x y Hz Hx Hy E3 E1) in E2. discriminate.
        + apply (no_eq _ _ NL) in E1; auto. apply (no_negtrans _ _ NL) with y; tauto.
      - destruct (neqb z x) eqn:E3.
        + apply (eq_sym_n NL) in E2; auto. rewrite (eq_trans_n NL y z x Hy Hz Hx E2 E3) in E1. discriminate.
        + apply (no_eq _ _ NL) in E2; auto. apply (no_negtrans _ _ NL) with y; tauto.
      - assert (N : nltb z x = false) by (apply (no_negtrans _ _ NL) with y; auto).
        destruct (neqb z x) eqn:E3; [|exact N]. exfalso. apply (no_eq _ _ NL) in E3; auto.
        assert (U : nltb x y = true). { destruct (nltb x y) eqn:E; auto. rewrite (proj2 (no_eq _ _ NL y x Hy Hx) (conj L1 E)) in E1. discriminate. }
        assert (V : nltb y z = true). { destruct (nltb y z) eqn:E; auto. rewrite (proj2 (no_eq _ _ NL z y Hz Hy) (conj L2 E)) in E2. discriminate. }
        assert (W : nltb x z = true) by (apply (no_trans _ _ NL) with y; auto). destruct E3. congruence.
    Qed.
    (** The numbers a key consists of. *)
    Definition key_ok (v : sval) : Prop := match v with SVNone => False | SV1 x => ok x | SVL a => Forall ok a end.
    Lemma sv_asym : forall v w, key_ok v -> key_ok w -> sv_lt v w = true -> sv_lt w v = false.
    Proof. intros [|x|a] [|y|b] Hv Hw; unfold sv_lt; cbn in *; auto; try discriminate; [apply (lt_asym NL); auto|apply lex_asym; auto]. Qed.
    Definition one_kind (vs : list sval) : Prop := (exists xs, vs = map SV1 xs) \/ (exists ls, vs = map SVL ls).
    Lemma kind_negtrans : forall vs, one_kind vs -> Forall key_ok vs -> forall u v w, In u vs -> In v vs -> In w vs -> sv_lt v u = false -> sv_lt w v = false -> sv_lt w u = false.
    Proof.
      intros vs K F u v w Iu Iv Iw. rewrite Forall_forall in F. pose proof (F u Iu) as Fu. pose proof (F v Iv) as Fv. pose proof (F w Iw) as Fw.
      destruct K as [(xs & ->)|(ls & ->)]; apply in_map_iff in Iu, Iv, Iw; destruct Iu as (x & <- & _), Iv as (y & <- & _), Iw as (z & <- & _); unfold sv_lt; cbn in *; intros H1 H2.
      - apply (no_negtrans _ _ NL) with y; auto.
      - apply (lex_negtrans x y z); auto.
    Qed.
  End Order.

  (** *** Sorting with positions attached *)
  Lemma insert_map : forall {A B} (f : A -> B) (lt : B -> B -> bool) x l, map f (insert_by (fun a b => lt (f a) (f b)) x l) = insert_by lt (f x) (map f l).
  Proof. induction l as [|y l IH]; [reflexivity|]. cbn [insert_by map]. destruct (lt (f y) (f x)); cbn [map]; congruence. Qed.
  Lemma sort_map : forall {A B} (f : A -> B) (lt : B -> B -> bool) l, map f (sort_by (fun a b => lt (f a) (f b)) l) = sort_by lt (map f l).
  Proof. induction l as [|x l IH]; [reflexivity|]. cbn [sort_by map]. rewrite insert_map, IH. reflexivity. Qed.
  Section Tagged.
    Variables (vs : list sval) (T : list ((sval * nat) * nat)).
    Hypothesis order : forall u v w, In u vs -> In v vs -> In w vs -> sv_lt v u = false -> sv_lt w v = false -> sv_lt w u = false.
    Hypothesis asym : forall v w, In v vs -> In w vs -> sv_lt v w = true -> sv_lt w v = false.
    Definition tag_lt (a b : (sval * nat) * nat) : bool := kv_lt (fst a) (fst b).
    Definition first (a b : (sval * nat) * nat) : Prop := sv_lt (fst (fst a)) (fst (fst b)) = true \/ sv_lt (fst (fst b)) (fst (fst a)) = false /\ (snd a < snd b)%nat.
    Lemma insert_first : forall x l, In (fst (fst x)) vs -> Forall (fun y => In (fst (fst y)) vs /\ (snd x < snd y)%nat) l -> StronglySorted first l -> StronglySorted first (insert_by tag_lt x l).
    Proof.
      intros x l Ix F H. induction l as [|y l IH]; cbn [insert_by]; [repeat constructor|].
      inversion F as [|? ? [Iy Ly] F']; subst. inversion H as [|? ? H1 H2]; subst. unfold tag_lt at 1, kv_lt. destruct (sv_lt (fst (fst y)) (fst (fst x))) eqn:E.
      - constructor; [apply IH; auto|]. apply Forall_forall. intros z Iz. apply (Permutation_in _ (insert_by_perm tag_lt x l)) in Iz. destruct Iz as [<-|Iz]; [left; exact E|].
        rewrite Forall_forall in H2. auto.
      - constructor; auto. constructor; [right; auto|]. apply Forall_forall. intros z Iz. rewrite Forall_forall in F', H2. destruct (F' z Iz) as [Iz' Lz].
        right. split; auto. apply (order (fst (fst x)) (fst (fst y)) (fst (fst z))); auto. destruct (H2 z Iz) as [L|[L _]]; auto.
    Qed.
    Lemma sort_first : forall l, Forall (fun y => In (fst (fst y)) vs) l -> StronglySorted (fun a b => (snd a < snd b)%nat) l -> StronglySorted first (sort_by tag_lt l).
    Proof.
      intros l F H. induction l as [|x l IH]; cbn [sort_by]; [constructor|]. inversion F as [|? ? Fx F2]; subst. inversion H as [|? ? G3 G4]; subst. apply insert_first; auto.
      apply Forall_forall. intros y Iy. apply (Permutation_in _ (sort_by_perm tag_lt l)) in Iy. rewrite Forall_forall in *. auto.
    Qed.
  End Tagged.
  Lemma sorted_nth : forall {A} (R : A -> A -> Prop) l, StronglySorted R l -> forall a b x y, (a < b)%nat -> nth_error l a = Some x -> nth_error l b = Some y -> R x y.
  Proof.
    intros A R l H. induction H as [|z l H IH F]; intros a b x y L Ea Eb; [destruct a; discriminate|]. destruct b as [|b]; [lia|]. destruct a as [|a]; cbn in Ea, Eb.
    - inversion Ea; subst. rewrite Forall_forall in F. apply F. eapply nth_error_In; eauto.
    - eapply IH; [|exact Ea|exact Eb]. lia.
  Qed.

  Lemma tags_increase : forall (l : list nat) (T : list ((sval * nat) * nat)), map snd T = seq 0 (List.length l) -> StronglySorted (fun a b => (snd a < snd b)%nat) T.
  Proof.
    intros l T. generalize (List.length l) 0%nat. intros n a. revert n a. induction T as [|t T IH]; intros n a E; constructor.
    - destruct n as [|n]; [discriminate|]. inversion E. eapply IH; eauto.
    - destruct n as [|n]; [discriminate|]. inversion E as [[E1 E2]]. apply Forall_forall. intros u Iu. apply (in_map snd) in Iu. rewrite E2 in Iu. apply in_seq in Iu. lia.
  Qed.
  (** Keys that can be compared: the result is the stable sort, nothing else happens. *)
  Theorem C80_sort : forall ok, NumOrder NO ok -> forall k l s vs, Forall2 (fun r v => key_of k (heap s r) = Some v) l vs -> Forall (key_ok ok) vs -> one_kind vs ->
    exists l', sort_by_dict k l s = Ok l' s /\ stable_sort before vs l l'.
  Proof.
    intros ok NL k l s vs F K O1.
    assert (L : List.length vs = List.length l) by (symmetry; eapply Forall2_length; eauto).
    assert (Ef : map fst (combine vs l) = vs) by (clear -L; revert l L; induction vs as [|v vs IH]; intros [|r l] L; cbn in *; try discriminate; auto; rewrite IH; auto).
    assert (C : comparable vs = true).
    { destruct vs as [|v [|w vs']]; auto. cbn [comparable]. apply forallb_forall. intros u Iu. destruct O1 as [(xs & E)|(xs & E)]; rewrite E in Iu; apply in_map_iff in Iu; destruct Iu as (x & <- & _);
        destruct xs; inversion E; reflexivity. }
    exists (map snd (sort_by kv_lt (combine vs l))). split.
    { unfold sort_by_dict, bind. rewrite (read_keys_run _ _ _ _ F), Ef, C. reflexivity. }
    pose (T := combine (combine vs l) (seq 0 (List.length l))).
    assert (Lc : List.length (combine vs l) = List.length l) by (rewrite combine_length; lia).
    assert (E1 : map fst T = combine vs l).
    { unfold T. clear -Lc. revert Lc. generalize (combine vs l) (List.length l) 0%nat. intros c n a E. subst n. revert a. induction c as [|x c IH]; intros a; [reflexivity|]. cbn. rewrite IH. reflexivity. }
    assert (E2 : map snd T = seq 0 (List.length l)).
    { unfold T. clear -Lc. revert Lc. generalize (combine vs l) (List.length l) 0%nat. intros c n a E. subst n. revert a. induction c as [|x c IH]; intros a; [reflexivity|]. cbn. rewrite IH. reflexivity. }
    assert (TT : forall t, In t T -> nth_error vs (snd t) = Some (fst (fst t)) /\ nth_error l (snd t) = Some (snd (fst t))).
    { unfold T. intros [[v r] i] I. cbn [fst snd]. apply In_nth_error in I. destruct I as (n & E).
      assert (X : forall {A B} (x : list A) (y : list B) n a b, nth_error (combine x y) n = Some (a, b) -> nth_error x n = Some a /\ nth_error y n = Some b).
      { clear. induction x as [|a x IH]; intros y n a' b E; [destruct n; discriminate|]. destruct y as [|b' y]; [destruct n; discriminate|]. destruct n; cbn in *; [inversion E; auto|apply IH; auto]. }
      apply X in E. destruct E as [E Ei]. apply X in E. destruct E as [Ev Er].
      assert (i = n). { assert (n < List.length (seq 0 (List.length l)))%nat by (apply nth_error_Some; congruence). rewrite seq_length in H. apply nth_error_nth with (d := 0%nat) in Ei. rewrite seq_nth in Ei by auto. lia. }
      subst i. auto. }
    pose (S0 := sort_by tag_lt T). assert (P : Permutation S0 T) by apply sort_by_perm.
    assert (Es : sort_by kv_lt (combine vs l) = map fst S0) by (rewrite <- E1; symmetry; apply (sort_map fst kv_lt T)).
    exists (map snd S0). split; [rewrite <- E2; apply Permutation_map; auto|]. split.
    - rewrite Es, map_map. assert (TS : forall t, In t S0 -> nth_error l (snd t) = Some (snd (fst t))) by (intros t I; apply TT; eapply Permutation_in; eauto).
      clear -TS. induction S0 as [|t m IH]; cbn [map]; constructor; [apply TS; left; auto|]. apply IH. intros; apply TS; right; auto.
    - assert (Sd : StronglySorted first S0).
      { apply (sort_first vs).
        - intros u v w Iu Iv Iw. eapply kind_negtrans; eauto.
        - intros v w Iv Iw. rewrite Forall_forall in K. eapply sv_asym; eauto.
        - apply Forall_forall. intros t I. destruct (TT t I) as [E _]. eapply nth_error_In; eauto.
        - apply tags_increase with (l := l). exact E2. }
      intros a b i j v w Lt Ea Eb Ev Ew. rewrite nth_error_map in Ea, Eb. destruct (nth_error S0 a) as [ta|] eqn:Ta; [|discriminate]. destruct (nth_error S0 b) as [tb|] eqn:Tb; [|discriminate].
      cbn in Ea, Eb. inversion Ea; inversion Eb; subst i j. pose proof (sorted_nth _ _ Sd a b ta tb Lt Ta Tb) as Ft.
      destruct (TT ta) as [Xa _]; [eapply Permutation_in; [exact P|eapply nth_error_In; eauto]|]. destruct (TT tb) as [Xb _]; [eapply Permutation_in; [exact P|eapply nth_error_In; eauto]|].
      rewrite Xa in Ev. rewrite Xb in Ew. inversion Ev; inversion Ew; subst. destruct Ft as [Ft|[Ft Fi]]; [left; apply sv_before; auto|right; split; auto].
      rewrite <- sv_before. congruence.
  Qed.
  (** The specification allows one result only. *)
  Lemma sorted_unique : forall {A} (R : A -> A -> Prop) (x y : list A), (forall a b, In a x -> In b x -> R a b -> R b a -> False) -> Permutation x y ->
    StronglySorted R x -> StronglySorted R y -> x = y.
  Proof.
    intros A R x. induction x as [|a x IH]; intros y As P Hx Hy; [apply Permutation_nil in P; auto|]. destruct y as [|b y]; [apply Permutation_sym, Permutation_nil in P; discriminate|].
    inversion Hx as [|? ? Hx1 Hx2]; inversion Hy as [|? ? Hy1 Hy2]; subst. rewrite Forall_forall in Hx2, Hy2.
    assert (a = b).
    { assert (Ia : In a (b :: y)) by (eapply Permutation_in; [exact P|left; auto]). assert (Ib : In b (a :: x)) by (eapply Permutation_in; [symmetry; exact P|left; auto]).
      destruct Ia as [->|Ia]; auto. destruct Ib as [->|Ib]; auto. destruct (As a b); [left; auto|right; auto|auto|auto]. }
    subst b. f_equal. apply IH; auto; [intros; eapply As; eauto; right; auto|]. eapply Permutation_cons_inv; eauto.
  Qed.
  Theorem C80_unique : forall ok, NumOrder NO ok -> forall vs l l1 l2, List.length vs = List.length l -> Forall (key_ok ok) vs -> stable_sort before vs l l1 -> stable_sort before vs l l2 -> l1 = l2.
  Proof.
    intros ok NL vs l l1 l2 L K (i1 & P1 & F1 & H1) (i2 & P2 & F2 & H2).
    pose (R := fun i j : nat => forall v w, nth_error vs i = Some v -> nth_error vs j = Some w -> before v w \/ ~ before w v /\ (i < j)%nat).
    assert (D : forall idx, Permutation idx (seq 0 (List.length l)) -> (forall a b i j v w, (a < b)%nat -> nth_error idx a = Some i -> nth_error idx b = Some j -> nth_error vs i = Some v -> nth_error vs j = Some w ->
      before v w \/ ~ before w v /\ (i < j)%nat) -> StronglySorted R idx).
    { clear. intros idx _ H. induction idx as [|i idx IH]; constructor.
      - apply IH. intros a b x y v w Lt. apply (H (S a) (S b)). lia.
      - apply Forall_forall. intros j Ij. apply In_nth_error in Ij. destruct Ij as (n & E). intros v w. apply (H 0%nat (S n)); auto. lia. }
    assert (E : i1 = i2).
    { apply (sorted_unique R); auto; [|etransitivity; [exact P1|symmetry; exact P2]].
      intros a b Ia Ib Rab Rba. assert (X : forall c, In c i1 -> exists v, nth_error vs c = Some v /\ key_ok ok v).
      { intros c Ic. apply (Permutation_in _ P1), in_seq in Ic. destruct (nth_error vs c) as [v|] eqn:E; [|apply nth_error_None in E; lia]. exists v. split; auto. rewrite Forall_forall in K. apply K. eapply nth_error_In; eauto. }
      destruct (X a Ia) as (v & Ev & Kv), (X b Ib) as (w & Ew & Kw).
      assert (As : ~ (before v w /\ before w v)). { intros [U V]. apply sv_before in U, V. rewrite (sv_asym ok NL v w Kv Kw U) in V. discriminate. }
      destruct (Rab v w Ev Ew) as [U|[U U']], (Rba w v Ew Ev) as [V|[V V']]; try tauto; lia. }
    subst i2. clear -F1 F2. revert l2 F2. induction F1 as [|i r idx l1 E F IH]; intros l2 F2; inversion F2 as [|? r' ? l2' E' F']; subst; auto. f_equal; [congruence|auto].
  Qed.
  (** Otherwise it raises: KeyError when a key is missing, TypeError when keys are of
      different kinds or None. *)
  Theorem C80_missing : forall k l s, (exists r, In r l /\ key_of k (heap s r) = None) -> sort_by_dict k l s = Err KeyError.
  Proof.
    intros k l s (r & I & E). unfold sort_by_dict, bind. assert (X : mmap (read_key k) l s = Err KeyError); [|rewrite X; reflexivity].
    induction l as [|x l IH]; [destruct I|]. cbn [mmap]. unfold bind at 1. unfold read_key at 1, bind, get, lift_opt.
    destruct (key_of k (heap s x)) as [v|] eqn:Ex; [|reflexivity]. cbn [ret]. unfold ret. destruct I as [->|I]; [congruence|]. rewrite IH; auto.
  Qed.
  Theorem C80_mixed : forall k l s vs, Forall2 (fun r v => key_of k (heap s r) = Some v) l vs -> (2 <= List.length l)%nat -> ~ one_kind vs -> sort_by_dict k l s = Err TypeError.
  Proof.
    intros k l s vs F L2 N. assert (L : List.length vs = List.length l) by (symmetry; eapply Forall2_length; eauto).
    assert (Ef : map fst (combine vs l) = vs) by (clear -L; revert l L; induction vs as [|v vs IH]; intros [|r l] L; cbn in *; try discriminate; auto; rewrite IH; auto).
    unfold sort_by_dict, bind. rewrite (read_keys_run _ _ _ _ F), Ef. destruct (comparable vs) eqn:C; [|reflexivity]. exfalso. apply N.
    destruct vs as [|v [|w vs]]; [cbn in L; lia|cbn in L; lia|]. cbn [comparable] in C. rewrite forallb_forall in C. remember (v :: w :: vs) as us. clear - C Hequs.
    destruct v as [|x|a].
    - specialize (C SVNone). rewrite Hequs in C. specialize (C (or_introl eq_refl)). discriminate.
    - left. clear Hequs. induction us as [|u us IH]; [exists []; auto|]. destruct IH as (xs & ->); [intros; apply C; right; auto|]. specialize (C u (or_introl eq_refl)). destruct u as [|y|b]; try discriminate. exists (y :: xs). reflexivity.
    - right. clear Hequs. induction us as [|u us IH]; [exists []; auto|]. destruct IH as (xs & ->); [intros; apply C; right; auto|]. specialize (C u (or_introl eq_refl)). destruct u as [|y|b]; try discriminate. exists (b :: xs). reflexivity.
  Qed.
  Theorem C80_short : forall k l s, (List.length l <= 1)%nat -> (forall r, In r l -> key_of k (heap s r) <> None) -> sort_by_dict k l s = Ok l s.
  Proof.
    intros k [|r [|r' l]] s L H; [reflexivity| |cbn in L; lia]. unfold sort_by_dict, bind. cbn [mmap]. unfold read_key, bind, get, lift_opt.
    destruct (key_of k (heap s r)) eqn:E; [reflexivity|]. destruct (H r (or_introl eq_refl) E).
  Qed.
End C80.

Section Examples80.
  Local Existing Instance Qops.
  Definition scored (v : sval) : individ := ind (ints [1%Z]) v.
  Definition list_world : st := world_ent [scored (SVL [2%Q; 1%Q]); scored (SVL [2%Q]); scored (SVL [1%Q; 5%Q]); scored (SVL [2%Q]); scored (SV1 7%Q); scored SVNone] [].
  (** List keys: [1;5] < [2] (twice, in the old order) < [2;1]. *)
  Example C80_lists : observe (fun l _ => l) (sort_by_dict KScore [0; 1; 2; 3]%nat list_world) = Some [2; 1; 3; 0]%nat.
  Proof. run. Qed.
  Example C80_lists_meet : let vs := map SVL [[2%Q; 1%Q]; [2%Q]; [1%Q; 5%Q]; [2%Q]] in
    Forall2 (fun r v => key_of KScore (heap list_world r) = Some v) [0; 1; 2; 3]%nat vs /\ Forall (key_ok (fun _ : @num Qops => True)) vs /\ one_kind vs.
  Proof. split; [repeat constructor|split; [repeat constructor|right; eexists; reflexivity]]. Qed.
  Example C80_prefix : list_before ([2] : list (@num Qops))%Q [2; 1]%Q /\ ~ list_before ([2; 1] : list (@num Qops))%Q [2]%Q.
  Proof. rewrite <- !lex_before. split; [reflexivity|]. cbv. discriminate. Qed.
  Example C80_errors : sort_by_dict KScore [0; 4]%nat list_world = Err TypeError /\ sort_by_dict KScore [4; 5]%nat list_world = Err TypeError /\ sort_by_dict KRank [0; 1]%nat list_world = Err KeyError.
  Proof. repeat split. Qed.
End Examples80.

Print Assumptions C80_sort. Print Assumptions C80_unique. Print Assumptions C80_missing. Print Assumptions C80_mixed. Print Assumptions C80_short.
