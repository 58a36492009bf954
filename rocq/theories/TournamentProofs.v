(** Tournament selection: which results are possible, termination and hanging. *)
From Coq Require Import String.
From Coq Require Import ZArith QArith List Bool Lia Permutation.
From Verif Require Import Spec Num State Binary Population GaData Selection ListLemmas Rnd Exec Laws CrossoverProofs PopulationProofs
  SelectionProofs.
Import ListNotations.
Open Scope list_scope.
Open Scope Z_scope.

Lemma nth_error_firstn_lt : forall {A} (l : list A) n i, (i < n)%nat -> nth_error (firstn n l) i = nth_error l i.
Proof.
  intros A l. induction l as [|a l IH]; intros [|n] i H; try lia; [destruct i; reflexivity|].
  destruct i; cbn [firstn nth_error]; [reflexivity|]. apply IH. lia.
Qed.
Lemma nth_error_skipn_add : forall {A} (l : list A) n i, nth_error (skipn n l) i = nth_error l (n + i).
Proof.
  intros A l. induction l as [|a l IH]; intros [|n] i; cbn [skipn Nat.add]; try reflexivity; [destruct i; reflexivity|]. apply IH.
Qed.

Section TournamentProofs.
  Context {NO : NumOps}.

  (** *** Every list of admissible pairs can be selected *)
  Lemma tournament_pair_reach : forall (ok : num -> Prop), NumOrder NO ok -> forall f idx t l s p1 p2,
    keys_ok ok s idx l -> 1 <= t <= Z.of_nat (length l) ->
    can_win s idx t l p1 -> can_win s idx t l p2 -> idx_individ (heap s p1) <> idx_individ (heap s p2) ->
    exists ds s1, (forall tp, tournament_pair (S f) idx t l (set_tape (papp ds tp) s) = Ok (next s, S (next s)) (set_tape tp s1)) /\
      extends s s1 /\ heap s1 (next s) = heap s p1 /\ heap s1 (S (next s)) = heap s p2 /\ next s1 = S (S (next s)).
  Proof.
    intros ok NL f idx t l s p1 p2 K Ht W1 W2 D.
    destruct (run_tournament_possible ok NL s idx t l K Ht) as [_ Hc].
    destruct (Hc p1 W1) as (d1 & H1). destruct (Hc p2 W2) as (d2 & H2).
    pose (s1 := mkSt (upd (upd (heap s) (next s) (heap s p1)) (S (next s)) (heap s p2)) (S (S (next s))) (tape s) (ent s) (rnd_seed s) (prng s) (log s)).
    exists (d1 ++ d2), s1. split.
    - intros tp. rewrite papp_app. unfold tournament_pair, bind. rewrite H1. cbn [second_parent]. unfold bind. rewrite H2.
      unfold get. cbn [heap set_tape]. assert (E : opt_eqb Z.eqb (idx_individ (heap s p2)) (idx_individ (heap s p1)) = false).
      { apply opt_eqb_Zf. congruence. }
      rewrite E. cbn [ret]. unfold alloc. cbn [heap next tape ent rnd_seed prng log set_tape]. reflexivity.
    - unfold s1. split; [|cbn; unfold upd; repeat split].
      + split; [cbn; lia|]. do 3 (split; [reflexivity|]). intros r Hr. cbn [heap]. unfold upd.
        destruct (Nat.eqb_spec r (S (next s))); [lia|]. destruct (Nat.eqb_spec r (next s)); [lia|auto].
      + destruct (Nat.eqb_spec (next s) (S (next s))); [lia|]. rewrite Nat.eqb_refl. auto.
      + rewrite Nat.eqb_refl. auto.
  Qed.
  Lemma tournament_reach : forall (ok : num -> Prop), NumOrder NO ok -> forall f idx t l prs s s0,
    keys_ok ok s0 idx l -> 1 <= t <= Z.of_nat (length l) -> (forall r, In r l -> (r < next s0)%nat) ->
    Forall (fun p => can_win s0 idx t l (fst p) /\ can_win s0 idx t l (snd p) /\
              idx_individ (heap s0 (fst p)) <> idx_individ (heap s0 (snd p))) prs ->
    extends s0 s ->
    exists ds s1 ps, (forall tp, mrepeat (length prs) (tournament_pair (S f) idx t l) (set_tape (papp ds tp) s) = Ok ps (set_tape tp s1)) /\
      extends s s1 /\ flatten_pairs ps = seq (next s) (2 * length prs) /\ next s1 = (next s + 2 * length prs)%nat /\
      Forall2 (fun c p => heap s1 c = heap s0 p) (flatten_pairs ps) (flatten_pairs prs).
  Proof.
    intros ok NL f idx t l. induction prs as [|[p1 p2] prs IH]; intros s s0 K Ht Hlt F X.
    - exists [], s, []. split; [reflexivity|]. split; [apply extends_refl|]. cbn. repeat split; auto.
    - inversion F as [|? ? (W1 & W2 & D) F']; subst. cbn [fst snd] in *.
      assert (Hh : forall r, In r l -> heap s r = heap s0 r) by (intros r Hr; destruct X as (_ & _ & _ & _ & Xh); auto).
      assert (I : forall b, can_win s0 idx t l b -> In b l) by (intros b (q & o & Hq & _); eapply nth_error_In; eauto).
      destruct (tournament_pair_reach ok NL f idx t l s p1 p2) as (d1 & s1 & R1 & X1 & E1 & E2 & N1); auto.
      { eapply keys_ok_ext; [|exact K]. auto. } { eapply can_win_ext; [|exact W1]. auto. } { eapply can_win_ext; [|exact W2]. auto. }
      { rewrite !Hh by auto. auto. }
      destruct (IH s1 s0) as (d2 & s2 & ps & R2 & X2 & Fl & N2 & F2); auto; [eapply extends_trans; eauto|].
      exists (d1 ++ d2), s2, ((next s, S (next s)) :: ps). split; [|split; [|split; [|split]]].
      + intros tp. rewrite papp_app. cbn [length mrepeat]. unfold bind. rewrite R1, R2. reflexivity.
      + eapply extends_trans; eauto.
      + rewrite flatten_cons, Fl, N1. cbn [length]. replace (2 * S (length prs))%nat with (S (S (2 * length prs))) by lia. reflexivity.
      + cbn [length]. lia.
      + rewrite !flatten_cons. destruct X2 as (_ & _ & _ & _ & Xh2). constructor; [|constructor; auto].
        * rewrite Xh2 by lia. rewrite E1. auto.
        * rewrite Xh2 by lia. rewrite E2. auto.
  Qed.

  (** *** Two different winners always exist when the members are distinct *)
  Lemma can_win_remove : forall s idx t l q b, (q < length l)%nat ->
    can_win s idx t (remove_at q l) b -> exists q', q' <> q /\ nth_error l q' = Some b /\ can_win s idx t l b.
  Proof.
    intros s idx t l q b Hq (p & others & Hp & ND & L & Hm).
    pose (sh := fun i => if (i <? q)%nat then i else S i).
    assert (Sh : forall i, nth_error (remove_at q l) i = nth_error l (sh i)).
    { intros i. unfold remove_at, sh. destruct (i <? q)%nat eqn:E; [apply Nat.ltb_lt in E|apply Nat.ltb_ge in E].
      - rewrite nth_error_app1 by (rewrite firstn_length; lia). apply nth_error_firstn_lt; auto.
      - rewrite nth_error_app2 by (rewrite firstn_length; lia). rewrite firstn_length, nth_error_skipn_add. f_equal. lia. }
    assert (Shi : forall i j, sh i = sh j -> i = j).
    { intros i j. unfold sh. destruct (i <? q)%nat eqn:E; destruct (j <? q)%nat eqn:E'; rewrite ?Nat.ltb_lt, ?Nat.ltb_ge in *; lia. }
    exists (sh p). split; [unfold sh; destruct (p <? q)%nat eqn:E; rewrite ?Nat.ltb_lt, ?Nat.ltb_ge in *; lia|].
    split; [rewrite <- Sh; auto|]. exists (sh p), (map sh others). split; [rewrite <- Sh; auto|].
    split; [change (NoDup (map sh (p :: others))); apply FinFun.Injective_map_NoDup; auto|].
    split; [rewrite map_length; auto|]. intros p' Hp'. apply in_map_iff in Hp'. destruct Hp' as (i & <- & Hi).
    destruct (Hm i Hi) as (r & x & y & Hr & H). exists r, x, y. rewrite <- Sh. auto.
  Qed.
  Lemma remove_at_incl : forall {A} q (l : list A), incl (remove_at q l) l.
  Proof.
    intros A q l x H. unfold remove_at in H. apply in_app_or in H. rewrite <- (firstn_skipn q l). apply in_or_app.
    destruct H as [H|H]; [auto|right]. destruct (skipn q l) as [|a r] eqn:E.
    - assert (skipn (S q) l = []) by (replace (S q) with (1 + q)%nat by lia; rewrite <- skipn_skipn, E; reflexivity). rewrite H0 in H. destruct H.
    - right. replace (S q) with (1 + q)%nat in H by lia. rewrite <- skipn_skipn, E in H. exact H.
  Qed.
  Lemma remove_at_length : forall {A} q (l : list A), (q < length l)%nat -> S (length (remove_at q l)) = length l.
  Proof. intros. unfold remove_at. rewrite app_length, firstn_length, skipn_length. lia. Qed.
  Lemma two_winners : forall (ok : num -> Prop), NumOrder NO ok -> forall s idx t l,
    keys_ok ok s idx l -> NoDup l -> 1 <= t < Z.of_nat (length l) ->
    forall b1, In b1 l -> exists b2, can_win s idx t l b2 /\ b2 <> b1.
  Proof.
    intros ok NL s idx t l K ND Ht b1 I1.
    destruct (In_nth_error _ _ I1) as (q & Hq). assert (Hql : (q < length l)%nat) by (apply nth_error_Some; congruence).
    pose proof (remove_at_length q l Hql) as Lr.
    assert (K2 : keys_ok ok s idx (remove_at q l)) by (intros r Hr; apply K; eapply remove_at_incl; eauto).
    destruct (run_tournament_possible ok NL s idx t (remove_at q l) K2) as [H _]; [lia|].
    destruct (H (tape s)) as (b2 & t' & _ & W). destruct (can_win_remove s idx t l q b2 Hql W) as (q' & Dq & Hq' & W').
    exists b2. split; auto. intros ->. apply Dq. rewrite NoDup_nth_error in ND. apply ND; [apply nth_error_Some; congruence|congruence].
  Qed.

  (** From any state the loop searching the second parent can stop at once. *)
  Lemma second_can_stop : forall (ok : num -> Prop), NumOrder NO ok -> forall idx t l s,
    keys_ok ok s idx l -> NoDup l -> 1 <= t < Z.of_nat (length l) ->
    (forall p1 p2, In p1 l -> In p2 l -> p1 <> p2 -> idx_individ (heap s p1) <> idx_individ (heap s p2)) ->
    forall first, In first l -> exists b ds, forall tp f,
      second_parent (S f) idx t l first (set_tape (papp ds tp) s) = Ok b (set_tape tp s).
  Proof.
    intros ok NL idx t l s K ND Ht Di first I1. destruct (two_winners ok NL s idx t l K ND Ht first I1) as (b & W & Hne).
    destruct (run_tournament_possible ok NL s idx t l K) as [_ Hc]; [lia|]. destruct (Hc b W) as (ds & Hds).
    exists b, ds. intros tp f. cbn [second_parent]. unfold bind. rewrite Hds. unfold get. cbn [heap set_tape].
    assert (Ib : In b l) by (destruct W as (q & o & Hq & _); eapply nth_error_In; eauto).
    assert (E : opt_eqb Z.eqb (idx_individ (heap s b)) (idx_individ (heap s first)) = false) by (apply opt_eqb_Zf; auto).
    rewrite E. reflexivity.
  Qed.

  (** *** Hanging *)
  Definition others (b : nat) (l : list nat) : nat := length (filter (fun r => negb (Nat.eqb r b)) l).
  Lemma others_positions : forall b l, length (filter (fun p => match nth_error l p with Some r => negb (Nat.eqb r b) | None => false end) (seq 0 (length l))) = others b l.
  Proof.
    intros b l. unfold others. induction l as [|a l IH]; [reflexivity|]. cbn [length seq filter nth_error]. rewrite <- seq_shift.
    assert (E : forall (f : nat -> bool) xs, filter f (map S xs) = map S (filter (fun x => f (S x)) xs)).
    { intros f xs. induction xs as [|x xs IHx]; [reflexivity|]. cbn [map filter]. rewrite IHx. destruct (f (S x)); reflexivity. }
    rewrite E. cbn [nth_error]. destruct (negb (a =? b)%nat); cbn [length]; rewrite map_length, IH; reflexivity.
  Qed.
  (** A member strictly better than all the others that fills all but fewer than [t]
      positions wins every tournament. *)
  Lemma always_wins : forall (ok : num -> Prop), NumOrder NO ok -> forall s idx t l b x,
    keys_ok ok s idx l -> key_at idx (heap s b) = Some x ->
    (forall r y, In r l -> r <> b -> key_at idx (heap s r) = Some y -> nltb y x = true) ->
    Z.of_nat (others b l) < t -> forall b', can_win s idx t l b' -> b' = b.
  Proof.
    intros ok NL s idx t l b x K Kb Hbest Ho b' (q & os & Hq & ND & L & Hm).
    destruct (Nat.eq_dec b' b) as [|Hne]; auto. exfalso.
    assert (Hb'l : In b' l) by (eapply nth_error_In; eauto).
    assert (A : incl (q :: os) (filter (fun p => match nth_error l p with Some r => negb (Nat.eqb r b) | None => false end) (seq 0 (length l)))).
    { intros p Hp. apply filter_In.
      assert (Hp' : exists r, nth_error l p = Some r /\ r <> b).
      { destruct Hp as [<-|Hp]; [eauto|]. destruct (Hm p Hp) as (r & xr & y & Hr & Hx & Hy & Hn). exists r. split; auto.
        intros ->. rewrite Kb in Hx. inversion Hx; subst. rewrite (Hbest b' y) in Hn; auto. discriminate. }
      destruct Hp' as (r & Hr & Hrb). split; [apply in_seq; split; [lia|]; cbn; apply nth_error_Some; congruence|].
      rewrite Hr. apply negb_true_iff, Nat.eqb_neq. auto. }
    apply NoDup_incl_length in A; auto. rewrite others_positions in A. cbn [length] in *. lia.
  Qed.
  Lemma pair_hangs : forall (ok : num -> Prop), NumOrder NO ok -> forall s idx t l b x,
    keys_ok ok s idx l -> key_at idx (heap s b) = Some x ->
    (forall r y, In r l -> r <> b -> key_at idx (heap s r) = Some y -> nltb y x = true) ->
    Z.of_nat (others b l) < t -> 1 <= t <= Z.of_nat (length l) ->
    forall f tp, tournament_pair f idx t l (set_tape tp s) = NoFuel.
  Proof.
    intros ok NL s idx t l b x K Kb Hbest Ho Ht f tp.
    destruct (run_tournament_possible ok NL s idx t l K Ht) as [Hr _].
    assert (A : forall tp, exists t', run_tournament idx t l (set_tape tp s) = Ok b (set_tape t' s)).
    { intros tp'. destruct (Hr tp') as (b' & t' & E & W). exists t'. rewrite E. f_equal. eapply always_wins; eauto. }
    assert (B : forall f tp, second_parent f idx t l b (set_tape tp s) = NoFuel).
    { clear f tp. induction f as [|f IH]; intros tp; [reflexivity|]. cbn [second_parent]. destruct (A tp) as (t' & E).
      unfold bind. rewrite E. unfold get.
      assert (E2 : opt_eqb Z.eqb (idx_individ (heap (set_tape t' s) b)) (idx_individ (heap (set_tape t' s) b)) = true) by (apply opt_eqb_Z; auto).
      rewrite E2. apply IH. }
    unfold tournament_pair. destruct (A tp) as (t' & E). unfold bind. rewrite E. rewrite B. reflexivity.
  Qed.
  Lemma tournament_hangs : forall (ok : num -> Prop), NumOrder NO ok -> forall f t gd s b x n,
    let l := members (population gd) in
    keys_ok ok s None l -> key_at None (heap s b) = Some x ->
    (forall r y, In r l -> r <> b -> key_at None (heap s r) = Some y -> nltb y x = true) ->
    Z.of_nat (others b l) < t -> t <= Z.of_nat (length l) -> 2 <= t < num_individ (population gd) ->
    pairs_wanted None gd n -> 1 <= n ->
    selection_execute f (SelTournament t) gd s = NoFuel.
  Proof.
    intros ok NL f t gd s b x n l K Kb Hbest Ho Hl Ht Hn Hn1. cbn [selection_execute]. unfold bind at 1.
    unfold check_tournament_size. destruct (t <? 2) eqn:E1; [apply Z.ltb_lt in E1; lia|].
    destruct (num_individ (population gd) <=? t) eqn:E2; [apply Z.leb_le in E2; lia|]. cbn [orb ret].
    unfold bind. destruct (base_execute gd s) as [gd1 s1|e|] eqn:E; [|exfalso; eapply base_execute_safe; eauto|reflexivity].
    apply base_execute_ok in E. destruct E as (-> & N & _ & _ & _ & Rn). change (renumbered l s s1) in Rn.
    unfold tournament, bind, get_total_num_parents, bind, ret, lift_opt.
    cbn [children_percent population set_parents num_individ]. cbn [pairs_wanted] in Hn. rewrite Hn.
    replace (Z.to_nat n) with (S (Z.to_nat (n - 1))) by lia. cbn [mrepeat]. unfold bind. fold l.
    rewrite <- (set_tape_same s1).
    assert (H : forall f tp, tournament_pair f None t l (set_tape tp s1) = NoFuel).
    { apply (pair_hangs ok NL s1 None t l b x); auto; try lia.
      - apply (keys_ok_key ok s s1); auto. intros r Hr. eapply renumbered_key; eauto.
      - rewrite (renumbered_key l s s1 b None Rn). auto.
      - intros r y Hr Hb Hy. rewrite (renumbered_key l s s1 r None Rn) in Hy. eauto. }
    rewrite H. reflexivity.
  Qed.

  (** *** More fuel never changes a finished run *)
  Lemma second_parent_fuel : forall idx t l first f s b s', second_parent f idx t l first s = Ok b s' ->
    forall f', (f <= f')%nat -> second_parent f' idx t l first s = Ok b s'.
  Proof.
    intros idx t l first. induction f as [|f IH]; intros s b s' H f' Hf; [discriminate|]. destruct f' as [|f']; [lia|].
    cbn [second_parent] in *. bd H b1 s1 R1. unfold bind at 1. rewrite R1. bd H bi s2 R2. unfold bind at 1. rewrite R2.
    bd H fi s3 R3. unfold bind at 1. rewrite R3. destruct (opt_eqb _ _ _); auto. apply IH; auto. lia.
  Qed.
  Definition fuel_mono {A} (m : nat -> M A) : Prop :=
    forall f f' s a s', (f <= f')%nat -> m f s = Ok a s' -> m f' s = Ok a s'.
  Lemma fuel_mono_const : forall {A} (m : M A), fuel_mono (fun _ => m).
  Proof. intros A m f f' s a s' _ H. exact H. Qed.
  Lemma fuel_mono_bind : forall {A B} (m : nat -> M A) (k : nat -> A -> M B), fuel_mono m -> (forall a, fuel_mono (fun f => k f a)) ->
    fuel_mono (fun f => bind (m f) (k f)).
  Proof.
    intros A B m k Hm Hk f f' s b s' Hf H. apply bind_ok in H. destruct H as (a & s1 & H1 & H2).
    unfold bind. rewrite (Hm f f' s a s1 Hf H1). exact (Hk a f f' s1 b s' Hf H2).
  Qed.
  Lemma fuel_mono_repeat : forall {A} (m : nat -> M A) n, fuel_mono m -> fuel_mono (fun f => mrepeat n (m f)).
  Proof.
    intros A m n Hm. induction n; cbn [mrepeat]; [apply fuel_mono_const|]. apply fuel_mono_bind; auto. intros a.
    apply fuel_mono_bind; auto. intros; apply fuel_mono_const.
  Qed.
  Lemma fuel_mono_fold : forall {A B} (g : nat -> A -> B -> M A) (l : list B) a, (forall a b, fuel_mono (fun f => g f a b)) ->
    fuel_mono (fun f => mfold (g f) l a).
  Proof.
    intros A B g l. induction l as [|b l IH]; intros a Hg; cbn [mfold]; [apply fuel_mono_const|].
    apply fuel_mono_bind; auto.
  Qed.
  Lemma second_index_fuel : forall scores first, fuel_mono (fun f => second_index f scores first).
  Proof.
    intros scores first f. induction f as [|f IH]; intros f' s b s' Hf H; [discriminate|]. destruct f' as [|f']; [lia|].
    cbn [second_index] in *. bd H b1 s1 R1. unfold bind at 1. rewrite R1. destruct (_ =? _); auto. apply IH; auto. lia.
  Qed.
  Lemma tournament_fuel : forall m idx t gd, fuel_mono (fun f => tournament f m idx t gd).
  Proof.
    intros. unfold tournament. apply (fuel_mono_bind (fun _ => get_total_num_parents m gd)); [apply fuel_mono_const|]. intros n.
    apply (fuel_mono_bind (fun f => mrepeat (Z.to_nat n) (tournament_pair f idx t (members (population gd))))).
    - apply (fuel_mono_repeat (fun f => tournament_pair f idx t (members (population gd)))). unfold tournament_pair.
      apply (fuel_mono_bind (fun _ => run_tournament idx t (members (population gd)))); [apply fuel_mono_const|]. intros p1.
      apply (fuel_mono_bind (fun f => second_parent f idx t (members (population gd)) p1)).
      + intros f f' s a s' Hf H. eapply second_parent_fuel; eauto.
      + intros. apply fuel_mono_const.
    - intros. apply fuel_mono_const.
  Qed.
  Lemma balanced_pass_fuel : forall ranked m idx gd, fuel_mono (fun f => balanced_pass f ranked m idx gd).
  Proof.
    intros. unfold balanced_pass. apply (fuel_mono_bind (fun _ => base_execute gd)); [apply fuel_mono_const|]. intros gd1.
    apply (fuel_mono_bind (fun _ => if ranked then assign_selection_ranks idx (members (population gd1)) else ret tt)); [apply fuel_mono_const|]. intros _.
    apply (fuel_mono_bind (fun _ => add_probabilities (if ranked then KRank else KScore) idx (members (population gd1)))); [apply fuel_mono_const|].
    intros scores. unfold balanced_selection.
    apply (fuel_mono_bind (fun _ => get_total_num_parents m gd1)); [apply fuel_mono_const|]. intros n.
    apply (fuel_mono_bind (fun f => mrepeat (Z.to_nat n) (balanced_pair f scores (members (population gd1))))).
    - apply (fuel_mono_repeat (fun f => balanced_pair f scores (members (population gd1)))). unfold balanced_pair.
      apply (fuel_mono_bind (fun _ => get_index scores)); [apply fuel_mono_const|]. intros i1.
      apply (fuel_mono_bind (fun f => second_index f scores i1)); [apply second_index_fuel|]. intros; apply fuel_mono_const.
    - intros. apply fuel_mono_const.
  Qed.
  Lemma selection_fuel : forall sel gd, fuel_mono (fun f => selection_execute f sel gd).
  Proof.
    intros [t| | |m t|m|m] gd; cbn [selection_execute].
    - apply (fuel_mono_bind (fun _ => check_tournament_size t (num_individ (population gd)))); [apply fuel_mono_const|]. intros _.
      apply (fuel_mono_bind (fun _ => base_execute gd)); [apply fuel_mono_const|]. intros. apply tournament_fuel.
    - apply balanced_pass_fuel.
    - apply balanced_pass_fuel.
    - apply (fuel_mono_bind (fun _ => check_tournament_size t (num_individ (population gd)))); [apply fuel_mono_const|]. intros _.
      apply (fuel_mono_bind (fun _ => base_execute gd)); [apply fuel_mono_const|]. intros.
      apply (fuel_mono_fold (fun f g i => tournament f (Some m) (Some i) t g)). intros. apply tournament_fuel.
    - apply (fuel_mono_fold (fun f g i => balanced_pass f false (Some m) (Some i) g)). intros. apply balanced_pass_fuel.
    - apply (fuel_mono_bind (fun _ => miter (fun r => modify r (set_rank (Some (SVL (repeat nzero (Z.to_nat m)))))) (members (population gd)))); [apply fuel_mono_const|]. intros _.
      apply (fuel_mono_fold (fun f g i => balanced_pass f true (Some m) (Some i) g)). intros. apply balanced_pass_fuel.
  Qed.
End TournamentProofs.
