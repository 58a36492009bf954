(** Proofs about mutations (Mutation.v). *)
From Coq Require Import String.
From Coq Require Import ZArith QArith Qround List Bool Lia Lqa Permutation.
From Verif Require Import Spec Num State Binary Population GaData Mutation ListLemmas Rnd Exec Laws
  CrossoverProofs.
Import ListNotations.
Open Scope list_scope.
Open Scope Z_scope.

Section MutationProofs.
  Context {NO : NumOps}.

  (** *** Exact results of the combinatorial moves *)
  Lemma two_idx_possible : forall n, 2 <= n ->
    possible (two_idx n) (fun ij => 0 <= fst ij < n /\ 0 <= snd ij < n /\ fst ij <> snd ij).
  Proof.
    intros n Hn. unfold two_idx. eapply possible_iff.
    - apply possible_bind; [apply possible_sample; rewrite zrange_length_Z; lia|].
      intros l Hl. cbv beta in Hl. apply picks_nodup_iff in Hl; [|apply zrange_nodup].
      destruct Hl as (L & N & I). destruct l as [|a [|b [|]]]; simpl in L; try lia.
      instantiate (1 := fun l ab => match l with [a; b] => ab = (a, b) | _ => False end).
      apply possible_ret.
    - intros [x y]. simpl. split.
      + intros (l & Hl & E). apply picks_nodup_iff in Hl; [|apply zrange_nodup].
        destruct Hl as (L & N & I). destruct l as [|a [|b [|]]]; simpl in L; try lia.
        assert (Ia : In a (zrange 0 n)) by (apply I; left; auto). assert (Ib : In b (zrange 0 n)) by (apply I; right; left; auto).
        apply in_zrange in Ia, Ib. inversion E; subst. split; [lia|]. split; [lia|].
        intros ->. inversion N as [|? ? N1 N2]. apply N1. left; auto.
      + intros H. exists [x; y]. split; auto. apply picks_nodup_iff; [apply zrange_nodup|]. split; [reflexivity|]. split.
        * repeat constructor; simpl; intuition lia.
        * intros z [<-|[<-|[]]]; apply in_zrange; lia.
  Qed.
  Lemma two_idx_short : forall n s, n < 2 -> two_idx n s = Err ValueError.
  Proof.
    intros. unfold two_idx, bind. rewrite sample_error; [reflexivity|]. right. rewrite zrange_length_Z. lia.
  Qed.

  Lemma nth_error_some_lt : forall {A} (l : list A) i, (i < length l)%nat -> exists x, nth_error l i = Some x.
  Proof. intros A l i H. destruct (nth_error l i) eqn:E; eauto. apply nth_error_None in E. lia. Qed.

  Lemma movement_possible : forall (g : list gv), (2 <= length g)%nat -> possible (movement g) (moved g).
  Proof.
    intros g Hg. unfold movement. eapply possible_iff.
    - apply possible_bind; [apply two_idx_possible; unfold zlen; lia|]. intros ij Hij. apply possible_ret.
    - intros c. unfold zlen. split.
      + intros ([i j] & Hij & ->). simpl in *. destruct (nth_error_some_lt g (Z.to_nat i)) as [x Hx]; [lia|].
        exists (Z.to_nat i), (Z.to_nat j), x. split; [lia|]. split; [lia|]. split; [lia|]. split; auto.
        unfold move_gene. rewrite Hx. reflexivity.
      + intros (i & j & x & Hi & Hj & Hij & Hx & ->). exists (Z.of_nat i, Z.of_nat j). simpl. split; [lia|].
        unfold move_gene. rewrite !Nat2Z.id, Hx. reflexivity.
  Qed.
  Lemma movement_short : forall (g : list gv) s, (length g < 2)%nat -> movement g s = Err ValueError.
  Proof. intros. unfold movement, bind. rewrite two_idx_short by (unfold zlen; lia). reflexivity. Qed.

  Lemma list_set_nth_error : forall {A} (l : list A) i x j, (i < length l)%nat ->
    nth_error (list_set l i x) j = if Nat.eqb j i then Some x else nth_error l j.
  Proof.
    induction l as [|y l IH]; intros i x j H; simpl in *; [lia|].
    destruct i, j; simpl; auto. apply IH. lia.
  Qed.
  Lemma nth_error_ext : forall {A} (a b : list A), (forall i, nth_error a i = nth_error b i) -> a = b.
  Proof.
    induction a as [|x a IH]; intros [|y b] H; auto.
    - specialize (H O). discriminate.
    - specialize (H O). discriminate.
    - f_equal; [specialize (H O); simpl in H; congruence|]. apply IH. intros i. apply (H (S i)).
  Qed.
  Lemma swap_possible : forall (g : list gv), (2 <= length g)%nat -> possible (swap_mut g) (swapped g).
  Proof.
    intros g Hg. unfold swap_mut. eapply possible_iff.
    - apply possible_bind; [apply two_idx_possible; unfold zlen; lia|]. intros ij Hij. apply possible_ret.
    - assert (K : forall i j x y p, (i < length g)%nat -> (j < length g)%nat -> nth_error g i = Some x -> nth_error g j = Some y ->
        nth_error (list_set (list_set g i y) j x) p = if Nat.eqb p j then nth_error g i else if Nat.eqb p i then nth_error g j else nth_error g p).
      { intros i j x y p Hi Hj Hx Hy. rewrite list_set_nth_error by (rewrite list_set_length; auto).
        rewrite list_set_nth_error by auto. rewrite Hx, Hy. reflexivity. }
      intros c. unfold zlen. split.
      + intros ([i j] & Hij & ->). simpl in *. exists (Z.to_nat i), (Z.to_nat j).
        split; [lia|]. split; [lia|]. split; [lia|].
        destruct (nth_error_some_lt g (Z.to_nat i)) as [x Hx]; [lia|].
        destruct (nth_error_some_lt g (Z.to_nat j)) as [y Hy]; [lia|].
        unfold swap_genes. rewrite Hx, Hy. rewrite !list_set_length. split; auto.
        rewrite !K by (auto; lia). rewrite !Nat.eqb_refl.
        assert (E : Nat.eqb (Z.to_nat i) (Z.to_nat j) = false) by (apply Nat.eqb_neq; lia). rewrite E.
        split; auto. split; auto. intros p Hp1 Hp2. rewrite K by (auto; lia).
        apply Nat.eqb_neq in Hp1, Hp2. rewrite Hp1, Hp2. reflexivity.
      + intros (i & j & Hi & Hj & Hij & L & E1 & E2 & E3). exists (Z.of_nat i, Z.of_nat j). simpl. split; [lia|].
        destruct (nth_error_some_lt g i) as [x Hx]; [lia|].
        destruct (nth_error_some_lt g j) as [y Hy]; [lia|].
        unfold swap_genes. rewrite !Nat2Z.id, Hx, Hy. apply nth_error_ext. intros p.
        rewrite K by auto. destruct (Nat.eqb_spec p j) as [->|N1]; auto. destruct (Nat.eqb_spec p i) as [->|N2]; auto.
  Qed.
  Lemma swap_short : forall (g : list gv) s, (length g < 2)%nat -> swap_mut g s = Err ValueError.
  Proof. intros. unfold swap_mut, bind. rewrite two_idx_short by (unfold zlen; lia). reflexivity. Qed.

  Lemma inversion_possible : forall (g : list gv), (2 <= length g)%nat -> possible (inversion g) (inverted g).
  Proof.
    intros g Hg. unfold inversion. eapply possible_iff.
    - apply possible_bind; [apply two_idx_possible; unfold zlen; lia|]. intros [i j] Hij.
      instantiate (1 := fun ij c => c = invert_genes (Z.min (fst ij) (snd ij)) (Z.max (fst ij) (snd ij)) g).
      simpl. destruct (j <? i) eqn:E; [apply Z.ltb_lt in E|apply Z.ltb_ge in E].
      + replace (Z.min i j) with j by lia. replace (Z.max i j) with i by lia. apply possible_ret.
      + replace (Z.min i j) with i by lia. replace (Z.max i j) with j by lia. apply possible_ret.
    - assert (K : forall a b, 0 <= a < b -> b < Z.of_nat (length g) -> invert_genes a b g =
        firstn (Z.to_nat a) g ++ rev (firstn (S (Z.to_nat b) - Z.to_nat a) (skipn (Z.to_nat a) g)) ++ skipn (S (Z.to_nat b)) g).
      { intros a b Ha Hb. unfold invert_genes. rewrite slice_to_in, slice_in, slice_from_in by lia.
        replace (Z.to_nat (b + 1)) with (S (Z.to_nat b)) by lia. reflexivity. }
      intros c. unfold zlen. split.
      + intros ([i j] & Hij & ->). simpl fst in *. simpl snd in *.
        exists (Z.to_nat (Z.min i j)), (Z.to_nat (Z.max i j)). split; [lia|]. split; [lia|]. apply K; lia.
      + intros (i & j & H1 & H2 & ->). exists (Z.of_nat i, Z.of_nat j). cbn [fst snd]. split; [lia|].
        replace (Z.min (Z.of_nat i) (Z.of_nat j)) with (Z.of_nat i) by lia.
        replace (Z.max (Z.of_nat i) (Z.of_nat j)) with (Z.of_nat j) by lia.
        rewrite K by lia. rewrite !Nat2Z.id. reflexivity.
  Qed.
  Lemma inversion_short : forall (g : list gv) s, (length g < 2)%nat -> inversion g s = Err ValueError.
  Proof. intros. unfold inversion, bind. rewrite two_idx_short by (unfold zlen; lia). reflexivity. Qed.

  Lemma shift_possible : forall (g : list gv), (3 <= length g)%nat -> possible (shift g) (shifted g).
  Proof.
    intros g Hg. unfold shift, zlen. set (n := Z.of_nat (length g)). assert (Hn : 3 <= n) by lia.
    assert (Lr : forall L st, 1 <= L <= n - 2 -> 0 <= st <= n - L ->
       slice_to g st ++ slice_from g (st + L) = firstn (Z.to_nat st) g ++ skipn (Z.to_nat (st + L)) g
       /\ length (firstn (Z.to_nat st) g ++ skipn (Z.to_nat (st + L)) g) = Z.to_nat (n - L)).
    { intros L st HL Hst. rewrite slice_to_in, slice_from_in by lia. split; auto.
      rewrite app_length, firstn_length, skipn_length. lia. }
    eapply possible_iff.
    - apply possible_bind; [apply possible_randint; lia|]. intros L HL. cbv beta in HL.
      instantiate (1 := fun L c => exists st, 0 <= st <= n - L /\ exists i, 0 <= i <= n - L /\ i <> st /\
         c = (let rest := firstn (Z.to_nat st) g ++ skipn (Z.to_nat (st + L)) g in
              firstn (Z.to_nat i) rest ++ firstn (Z.to_nat L) (skipn (Z.to_nat st) g) ++ skipn (Z.to_nat i) rest)).
      cbv beta.
      apply (possible_bind _ _ _ (fun st c => exists i, 0 <= i <= n - L /\ i <> st /\
         c = (let rest := firstn (Z.to_nat st) g ++ skipn (Z.to_nat (st + L)) g in
              firstn (Z.to_nat i) rest ++ firstn (Z.to_nat L) (skipn (Z.to_nat st) g) ++ skipn (Z.to_nat i) rest)));
        [apply possible_randint; lia|]. intros st Hst. cbv beta in Hst.
      cbv zeta. destruct (Lr L st HL Hst) as [E1 E2]. rewrite E1.
      set (rest := firstn (Z.to_nat st) g ++ skipn (Z.to_nat (st + L)) g) in *.
      assert (EL : Z.of_nat (length rest) = n - L) by lia.
      eapply possible_iff.
      + apply possible_bind.
        * apply possible_choice. intros C.
          assert (K : In (if st =? 0 then 1 else 0) (filter (fun i => negb (i =? st)) (zrange 0 (Z.of_nat (length rest) + 1)))).
          { apply filter_In. split; [apply in_zrange; destruct (st =? 0); lia|].
            destruct (Z.eqb_spec st 0); apply negb_true_iff, Z.eqb_neq; lia. }
          rewrite C in K. destruct K.
        * intros i Hi. apply possible_ret.
      + intros c. split.
        * intros (i & Hi & ->). apply filter_In in Hi. destruct Hi as [Hi1 Hi2]. apply in_zrange in Hi1.
          apply negb_true_iff, Z.eqb_neq in Hi2. exists i. split; [lia|]. split; auto.
          rewrite slice_to_in, slice_in, slice_from_in by lia. do 3 f_equal. lia.
        * intros (i & Hi & Hne & ->). exists i. split.
          -- apply filter_In. split; [apply in_zrange; lia|]. apply negb_true_iff, Z.eqb_neq. auto.
          -- rewrite slice_to_in, slice_in, slice_from_in by lia. do 3 f_equal. lia.
    - intros c. split.
      + intros (L & HL & st & Hst & i & Hi & Hne & ->).
        exists (Z.to_nat L), (Z.to_nat st), (Z.to_nat i). repeat (split; [lia|]).
        replace (Z.to_nat st + Z.to_nat L)%nat with (Z.to_nat (st + L)) by lia. reflexivity.
      + intros (L & st & i & H1 & H2 & H3 & H4 & H5 & ->).
        exists (Z.of_nat L). split; [lia|]. exists (Z.of_nat st). split; [lia|]. exists (Z.of_nat i).
        split; [lia|]. split; [lia|]. rewrite !Nat2Z.id.
        replace (Z.to_nat (Z.of_nat st + Z.of_nat L)) with (st + L)%nat by lia. reflexivity.
  Qed.
  Lemma shift_short : forall (g : list gv) s, (length g < 3)%nat -> shift g s = Err ValueError.
  Proof. intros. unfold shift, bind. rewrite randint_empty by (unfold zlen; lia). reflexivity. Qed.

  (** The move of each class. *)
  Definition combi_result (k : combi_kind) : list gv -> list gv -> Prop :=
    match k with Movement => moved | Swap_ => swapped | Inversion => inverted | Shift => shifted end.
  Definition combi_min (k : combi_kind) : nat := match k with Shift => 3 | _ => 2 end.
  Lemma combi_possible : forall k g, (combi_min k <= length g)%nat -> possible (combi_mutation k g) (combi_result k g).
  Proof.
    intros [] g H; simpl in *; [apply movement_possible|apply swap_possible|apply inversion_possible|apply shift_possible]; auto.
  Qed.
  Lemma combi_short : forall k g s, (length g < combi_min k)%nat -> combi_mutation k g s = Err ValueError.
  Proof.
    intros [] g s H; simpl in *; [apply movement_short|apply swap_short|apply inversion_short|apply shift_short]; auto.
  Qed.

  (** *** The moves permute *)
  Lemma moved_perm : forall {A} (g c : list A), moved g c -> Permutation g c.
  Proof.
    intros A g c (i & j & x & Hi & Hj & Hij & Hx & ->). cbv zeta.
    eapply perm_trans; [|apply Permutation_middle]. rewrite firstn_skipn.
    rewrite <- (firstn_skipn i g) at 1. erewrite skipn_cons_nth by eauto.
    rewrite (nth_error_nth g i x Hx). symmetry. apply Permutation_middle.
  Qed.
  Lemma swapped_perm : forall {A} (g c : list A), swapped g c -> Permutation g c.
  Proof.
    intros A g c (i & j & Hi & Hj & Hij & L & E1 & E2 & E3).
    apply Permutation_nth_error. split; auto.
    exists (fun p => if Nat.eqb p i then j else if Nat.eqb p j then i else p). split.
    - intros a b H. repeat match goal with H : context [Nat.eqb ?x ?y] |- _ => destruct (Nat.eqb_spec x y) end; lia.
    - intros p. destruct (Nat.eqb_spec p i) as [->|N1]; auto. destruct (Nat.eqb_spec p j) as [->|N2]; auto.
  Qed.
  Lemma inverted_perm : forall {A} (g c : list A), inverted g c -> Permutation g c.
  Proof.
    intros A g c (i & j & Hij & Hj & ->).
    rewrite <- (firstn_skipn i g) at 1. apply Permutation_app_head.
    rewrite <- (firstn_skipn (S j - i) (skipn i g)) at 1. rewrite skipn_skipn.
    replace (S j - i + i)%nat with (S j) by lia. apply Permutation_app_tail. apply Permutation_rev.
  Qed.
  Lemma shifted_perm : forall {A} (g c : list A), shifted g c -> Permutation g c.
  Proof.
    intros A g c (L & i & j & H1 & H2 & H3 & H4 & H5 & ->). cbv zeta.
    eapply perm_trans; [|apply Permutation_app_swap_app]. rewrite firstn_skipn.
    rewrite <- (firstn_skipn i g) at 1. rewrite <- (firstn_skipn L (skipn i g)) at 1. rewrite skipn_skipn.
    rewrite (Nat.add_comm L i). apply Permutation_app_swap_app.
  Qed.
  Lemma combi_perm : forall k g c, combi_result k g c -> Permutation g c.
  Proof. intros [] g c; [apply moved_perm|apply swapped_perm|apply inverted_perm|apply shifted_perm]. Qed.

  (** *** The moves move: some gene lands at a position where another one was. *)
  Lemma combi_moves : forall k g c, combi_result k g c -> exists p p',
    (p < length g)%nat /\ (p' < length g)%nat /\ p <> p' /\ nth_error c p = nth_error g p'.
  Proof.
    intros [] g c.
    - intros (i & j & x & Hi & Hj & Hij & Hx & ->). exists j, i. split; [lia|]. split; [lia|]. split; [lia|].
      cbv zeta. rewrite nth_error_app2; rewrite firstn_length, app_length, firstn_length, skipn_length; [|lia].
      replace (j - _)%nat with O by lia. simpl. auto.
    - intros (i & j & Hi & Hj & Hij & L & E1 & E2 & E3). exists i, j. auto.
    - intros (i & j & Hij & Hj & ->). exists i, j. split; [lia|]. split; [lia|]. split; [lia|].
      rewrite nth_error_app2; rewrite firstn_length; [|lia]. replace (i - _)%nat with O by lia.
      assert (Lm : length (firstn (S j - i) (skipn i g)) = (S j - i)%nat) by (rewrite firstn_length, skipn_length; lia).
      rewrite nth_error_app1 by (rewrite rev_length, Lm; lia).
      destruct (nth_error_some_lt g j Hj) as [x Hx]. rewrite Hx.
      assert (E : firstn (S j - i) (skipn i g) = firstn (j - i) (skipn i g) ++ [x]).
      { replace (S j - i)%nat with (j - i + 1)%nat by lia. rewrite <- firstn_firstn_skipn. f_equal.
        rewrite skipn_skipn. replace (j - i + i)%nat with j by lia. rewrite (skipn_cons_nth j g x) by lia.
        rewrite (nth_error_nth g j x Hx). reflexivity. }
      rewrite E, rev_app_distr. reflexivity.
    - intros (L & i & j & H1 & H2 & H3 & H4 & H5 & ->). exists j, i. split; [lia|]. split; [lia|]. split; [lia|].
      cbv zeta. rewrite nth_error_app2; rewrite firstn_length, app_length, firstn_length, skipn_length; [|lia].
      replace (j - _)%nat with O by lia.
      rewrite nth_error_app1 by (rewrite firstn_length, skipn_length; lia).
      destruct (nth_error_some_lt g i ltac:(lia)) as [x Hx]. rewrite Hx.
      rewrite (skipn_cons_nth i g x) by lia. rewrite (nth_error_nth g i x Hx).
      destruct L; [lia|]. reflexivity.
  Qed.

  Lemma dup_free_nth : forall {ok : num -> Prop} (NL : NumOrder NO ok) (g : list gv),
    Forall (gene_ok (ok := ok)) g -> dup_free gv_eqb g ->
    forall i j x y, i <> j -> nth_error g i = Some x -> nth_error g j = Some y -> gv_eqb x y = false.
  Proof.
    intros ok NL g G D. induction D as [|z l Hz D IH]; intros i j x y Hij Hi Hj; [destruct i; discriminate|].
    inversion G; subst. rewrite Forall_forall in Hz. destruct i, j; simpl in *; try lia.
    - inversion Hi; subst. apply Hz. eapply nth_error_In; eauto.
    - inversion Hj; subst. destruct (gv_eqb x y) eqn:E; auto. apply (gv_eqb_sym NL) in E; auto.
      + rewrite Hz in E; [discriminate|]. eapply nth_error_In; eauto.
      + rewrite Forall_forall in H2. apply H2. eapply nth_error_In; eauto.
    - apply (IH H2 i j); auto.
  Qed.

  (** *** The probability *)
  Definition fires (level : num) (k : Z) : bool := nleb (nofZ k) (nmul level (nofZ 1000)).
  Lemma determines_possible : forall level,
    possible (determines_mutation level) (fun b => exists k, 0 <= k <= 999 /\ b = fires level k).
  Proof.
    intros. unfold determines_mutation. eapply possible_iff.
    - apply possible_bind; [apply possible_randint; lia|]. intros k Hk. apply possible_ret.
    - intros b. split; intros (k & Hk & ->); exists k; auto.
  Qed.
  (** The draw decides. *)
  Lemma determines_run : forall level k t s, 0 <= k <= 999 ->
    determines_mutation level (set_tape (papp [k] t) s) = Ok (fires level k) (set_tape t s).
  Proof.
    intros level k t s Hk. unfold determines_mutation, bind, randint, draw, ret. change (999 <? 0) with false. cbv iota.
    unfold bind. cbn [tape set_tape papp]. change (999 - 0 + 1) with 1000. rewrite Z.mod_small by lia. reflexivity.
  Qed.

  (** *** Bit strings *)
  Lemma bin_possible : forall level g,
    possible (bin_mutation level g) (fun c => Forall2 (fun x y =>
       (exists k, 0 <= k <= 999 /\ y = if fires level k then flip x else x)) g c).
  Proof.
    intros level g. unfold bin_mutation. apply possible_mmap. intros x Hx. unfold bin_gene.
    eapply possible_iff.
    - apply possible_bind; [apply determines_possible|]. intros b Hb. apply possible_ret.
    - intros y. split.
      + intros (b & (k & Hk & ->) & ->). exists k. auto.
      + intros (k & Hk & ->). exists (fires level k). split; eauto.
  Qed.
  Lemma bin_run : forall level g ks t s, length ks = length g -> Forall (fun k => 0 <= k <= 999) ks ->
    bin_mutation level g (set_tape (papp ks t) s) =
      Ok (map (fun kx => if fires level (fst kx) then flip (snd kx) else snd kx) (combine ks g)) (set_tape t s).
  Proof.
    intros level g ks t s. revert ks. induction g as [|x g IH]; intros [|k ks] L F; simpl in L; try lia; [reflexivity|].
    inversion F; subst. unfold bin_mutation. cbn [mmap combine map fst snd].
    change (papp (k :: ks) t) with (papp [k] (papp ks t)).
    unfold bind at 1. unfold bin_gene at 1. unfold bind at 1. rewrite determines_run by auto. unfold ret at 1.
    unfold bind at 1. unfold bin_mutation in IH. rewrite IH by (auto; lia). reflexivity.
  Qed.

  (** *** Categorical genes *)
  (** The values a gene can take. *)
  Definition pool_values (p : cgen) : list gv :=
    match p with CRange a b stp => map GInt (py_range a (b + 1) stp) | CList l => l | COther => [] end.
  (** A pool that never raises for this current value. *)
  Definition pool_ok (p : cgen) (x : gv) : Prop :=
    match p with
    | CRange _ _ stp => stp <> 0
    | CList _ => True
    | COther => False
    end /\ ((length (pool_values p) <= 1)%nat \/ exists y, In y (pool_values p) /\ gv_eqb y x = false).
  Definition cat_result (level : num) (p : cgen) (x y : gv) : Prop :=
    exists k, 0 <= k <= 999 /\
      if fires level k && (1 <? zlen (pool_values p)) then In y (pool_values p) /\ gv_eqb y x = false else y = x.

  Lemma pool_choice : forall l x, (exists y, In y l /\ gv_eqb y x = false) ->
    possible (choice (filter (fun z => negb (gv_eqb z x)) l)) (fun y => In y l /\ gv_eqb y x = false).
  Proof.
    intros l x (y & Hy & Ey). eapply possible_iff.
    - apply possible_choice. intros C.
      assert (K : In y (filter (fun z => negb (gv_eqb z x)) l)) by (apply filter_In; rewrite Ey; auto).
      rewrite C in K. destruct K.
    - intros z. rewrite filter_In, negb_true_iff. reflexivity.
  Qed.
  Lemma cat_gene_possible : forall level p x, pool_ok p x -> possible (cat_gene level p x) (cat_result level p x).
  Proof.
    intros level p x [Hp Hx]. unfold cat_gene. eapply possible_iff.
    - apply possible_bind; [apply determines_possible|]. intros b Hb. cbv beta in Hb.
      instantiate (1 := fun b y => if b && (1 <? zlen (pool_values p)) then In y (pool_values p) /\ gv_eqb y x = false else y = x).
      cbv beta. destruct b; simpl andb; cbv iota; [|apply possible_ret].
      assert (K : forall l, pool_values p = l ->
        possible (if 1 <? zlen l then choice (filter (fun z => negb (gv_eqb z x)) l) else ret x)
          (fun y => if 1 <? zlen (pool_values p) then In y (pool_values p) /\ gv_eqb y x = false else y = x)).
      { intros l E. rewrite E in *. destruct (1 <? zlen l) eqn:El; [|apply possible_ret].
        apply Z.ltb_lt in El. unfold zlen in El. apply pool_choice. destruct Hx; [lia|auto]. }
      destruct p as [a b stp|l|]; [|apply K; reflexivity|destruct Hp].
      destruct (stp =? 0) eqn:E0; [apply Z.eqb_eq in E0; tauto|]. apply (K (map GInt (py_range a (b + 1) stp))). reflexivity.
    - intros y. unfold cat_result. split.
      + intros (b & (k & Hk & ->) & H). exists k. auto.
      + intros (k & Hk & H). exists (fires level k). split; eauto.
  Qed.
  Lemma cat_possible : forall level ps g, Forall2 pool_ok ps g ->
    possible (cat_mutation level ps g) (fun c => Forall3 (cat_result level) ps g c).
  Proof.
    intros level ps g F. induction F as [|p x ps g Hp F IH]; cbn [cat_mutation].
    - eapply possible_iff; [apply possible_ret|]. intros c. split; [intros ->; constructor|intros H; inversion H; auto].
    - eapply possible_iff.
      + apply possible_bind; [apply cat_gene_possible; auto|]. intros y Hy.
        apply possible_bind; [exact IH|]. intros r Hr. apply possible_ret.
      + intros c. split.
        * intros (y & Hy & r & Hr & ->). constructor; auto.
        * intros H. inversion H; subst. eexists. split; [eassumption|]. eexists. split; [eassumption|]. reflexivity.
  Qed.
  (** Without any hypothesis: every successful run. *)
  Lemma rnd_only_determines : forall level, rnd_only (determines_mutation level).
  Proof. intros. apply rnd_only_bind; auto with rnd. Qed.
  Lemma choice_ok : forall {A} (l : list A) s x s', choice l s = Ok x s' -> In x l.
  Proof.
    intros A [|d l] s x s' H; [discriminate|].
    apply (possible_sound _ _ _ _ _ (possible_choice (d :: l) ltac:(discriminate))) in H. tauto.
  Qed.
  Lemma cat_gene_ok : forall level p x s y s', cat_gene level p x s = Ok y s' -> cat_result level p x y.
  Proof.
    intros level p x s y s' H. unfold cat_gene in H. bd H b s1 R1.
    apply (possible_sound _ _ _ _ _ (determines_possible level)) in R1. destruct R1 as [(k & Hk & ->) _].
    exists k. split; auto.
    assert (K : forall l s, (if 1 <? zlen l then choice (filter (fun z => negb (gv_eqb z x)) l) else ret x) s = Ok y s' ->
      if 1 <? zlen l then In y l /\ gv_eqb y x = false else y = x).
    { intros l s0 H0. destruct (1 <? zlen l); [|apply ret_ok in H0; tauto]. apply choice_ok in H0.
      apply filter_In in H0. rewrite negb_true_iff in H0. auto. }
    destruct (fires level k); simpl andb; cbv iota; [|apply ret_ok in H; tauto].
    destruct p as [a b stp|l|]; [|apply K in H; exact H|discriminate].
    destruct (stp =? 0); [discriminate|]. cbv zeta in H. apply K in H. exact H.
  Qed.
  Lemma rnd_only_cat_gene : forall level p x, rnd_only (cat_gene level p x).
  Proof.
    intros. apply rnd_only_bind; [apply rnd_only_determines|]. intros b. destruct b; auto with rnd.
    destruct p; auto with rnd.
    - destruct (step =? 0); auto with rnd. cbv zeta. apply rnd_only_if; auto with rnd.
    - apply rnd_only_if; auto with rnd.
  Qed.
  (** Genes beyond the declared ones are kept (mutating them raises). *)
  Lemma cat_mutation_ok : forall level g ps s c s', cat_mutation level ps g s = Ok c s' ->
    length c = length g /\ forall i p x y, nth_error ps i = Some p -> nth_error g i = Some x -> nth_error c i = Some y ->
       cat_result level p x y.
  Proof.
    induction g as [|x g IH]; intros ps s c s' H; cbn [cat_mutation] in H.
    - apply ret_ok in H. destruct H as [-> _]. split; auto. intros i p x y _ Hx. destruct i; discriminate.
    - destruct ps as [|p ps].
      + bd H b s1 R1. destruct b; [discriminate|]. bd H r s2 R2. apply ret_ok in H. destruct H as [-> _].
        destruct (IH _ _ _ _ R2) as [L K]. split; [simpl; lia|]. intros i p y z Hp. destruct i; discriminate.
      + bd H y s1 R1. bd H r s2 R2. apply ret_ok in H. destruct H as [-> _].
        destruct (IH _ _ _ _ R2) as [L K]. split; [simpl; lia|]. intros [|i] p' x' y' Hp Hx Hy; simpl in *.
        * inversion Hp; inversion Hx; inversion Hy; subst. eapply cat_gene_ok; eauto.
        * eapply K; eauto.
  Qed.
  Lemma cat_all_equal_raises : forall level l x k t s, 0 <= k <= 999 -> fires level k = true ->
    (1 < length l)%nat -> Forall (fun y => gv_eqb y x = true) l ->
    cat_gene level (CList l) x (set_tape (papp [k] t) s) = Err IndexError.
  Proof.
    intros level l x k t s Hk Hf Hl Ha. unfold cat_gene, bind. rewrite determines_run by auto. rewrite Hf.
    assert (E : (1 <? zlen l) = true) by (apply Z.ltb_lt; unfold zlen; lia). rewrite E.
    replace (filter (fun z => negb (gv_eqb z x)) l) with (@nil gv); [reflexivity|].
    symmetry. clear - Ha. induction Ha as [|y l Hy Ha IH]; simpl; auto. rewrite Hy. simpl. auto.
  Qed.

  (** *** execute *)
  Lemma rnd_only_combi : forall k g, rnd_only (combi_mutation k g).
  Proof.
    assert (T : forall n, rnd_only (two_idx n)).
    { intros n. apply rnd_only_bind; auto with rnd. intros [|a [|b [|]]]; auto with rnd. }
    intros [] g; simpl.
    - apply rnd_only_bind; auto with rnd.
    - apply rnd_only_bind; auto with rnd.
    - apply rnd_only_bind; auto. intros [i j]. destruct (j <? i); auto with rnd.
    - apply rnd_only_bind; auto with rnd. intros L. apply rnd_only_bind; auto with rnd. intros st.
      cbv zeta. apply rnd_only_bind; auto with rnd.
  Qed.
  Lemma rnd_only_bin : forall level g, rnd_only (bin_mutation level g).
  Proof. intros. apply rnd_only_mmap. intros. apply rnd_only_bind; [apply rnd_only_determines|auto with rnd]. Qed.
  Lemma rnd_only_cat : forall level g ps, rnd_only (cat_mutation level ps g).
  Proof.
    induction g as [|x g IH]; intros ps; cbn [cat_mutation]; auto with rnd. destruct ps as [|p ps].
    - apply rnd_only_bind; [apply rnd_only_determines|]. intros []; auto with rnd. apply rnd_only_bind; auto with rnd.
    - apply rnd_only_bind; [apply rnd_only_cat_gene|]. intros. apply rnd_only_bind; auto with rnd.
  Qed.

  (** What one execution may do to the genotype of a child. *)
  Definition mutated (m : mutation) (gs : gspec) (g c : list gv) : Prop :=
    match m with
    | MutCombi k _ => c = g \/ combi_result k g c
    | MutBin _ => Forall2 (fun x y => y = x \/ y = flip x) g c
    | MutCat level => length c = length g /\
        match gs with
        | GenCat ps => forall i p x y, nth_error ps i = Some p -> nth_error g i = Some x -> nth_error c i = Some y ->
                         y = x \/ (In y (pool_values p) /\ gv_eqb y x = false)
        | _ => c = g
        end
    end.

  (** Without lists and ranges, a categorical mutation that succeeds changes nothing. *)
  Lemma cat_other : forall level g ps s c s', Forall (fun p => p = COther) ps -> cat_mutation level ps g s = Ok c s' -> c = g.
  Proof.
    intros level. induction g as [|x g IH]; intros ps s c s' Hp H; cbn [cat_mutation] in H; [apply ret_ok in H; destruct H; auto|].
    destruct ps as [|p ps].
    - bd H b s1 R1. destruct b; [discriminate H|]. bd H g' s2 R2. apply ret_ok in H. destruct H as [-> ->]. f_equal. eapply IH; eauto.
    - inversion Hp as [|? ? -> Hp']; subst. bd H y s1 R1. bd H g' s2 R2. apply ret_ok in H. destruct H as [-> ->].
      unfold cat_gene in R1. bd R1 b s3 R3. destruct b; [discriminate R1|]. apply ret_ok in R1. destruct R1 as [-> _]. f_equal. eapply IH; eauto.
  Qed.

  (** Updating the genotypes of the children one by one. *)
  Definition mut_step (Rel : list gv -> list gv -> Prop) (f : nat -> M unit) : Prop :=
    forall r s u s', f r s = Ok u s' ->
      exists g, Rel (genotype (heap s r)) g /\
        (forall r', heap s' r' = upd (heap s) r (set_genotype g (heap s r)) r') /\ next s' = next s /\ log s' = log s /\
        rnd_seed s' = rnd_seed s /\ prng s' = prng s.
  Lemma set_genotype_same : forall i, set_genotype (genotype i) i = i.
  Proof. destruct i; reflexivity. Qed.

  Definition mutates (Rel : list gv -> list gv -> Prop) (cs : list nat) (s s' : st) : Prop :=
    next s' = next s /\ log s' = log s /\ rnd_seed s' = rnd_seed s /\ prng s' = prng s /\
    forall r, exists g, heap s' r = set_genotype g (heap s r) /\
      (In r cs -> Rel (genotype (heap s r)) g) /\ (~ In r cs -> g = genotype (heap s r)).
  Lemma mut_step_iter : forall Rel f cs s u s', mut_step Rel f -> NoDup cs ->
    miter f cs s = Ok u s' -> mutates Rel cs s s'.
  Proof.
    intros Rel f cs s u s' Hf. revert s. induction cs as [|c cs IH]; intros s ND H; cbn [miter] in H.
    - apply ret_ok in H. destruct H as [_ ->]. repeat split; auto. intros r. exists (genotype (heap s r)).
      split; [destruct (heap s r); reflexivity|]. split; auto. intros [].
    - bd H v s1 R1. inversion ND as [|? ? Hni ND']; subst. apply Hf in R1. destruct R1 as (g & Rg & Hh & N & L & S1 & S2).
      destruct (IH _ ND' H) as (N' & L' & S1' & S2' & K). split; [congruence|]. split; [congruence|].
      split; [congruence|]. split; [congruence|].
      intros r. destruct (K r) as (g' & E & K1 & K2). destruct (Nat.eq_dec r c) as [->|Hne].
      + exists g. rewrite E, (K2 Hni), Hh. unfold upd. rewrite Nat.eqb_refl.
        split; [destruct (heap s c); reflexivity|]. split; auto. intros C. exfalso. apply C. left; auto.
      + assert (Er : heap s1 r = heap s r). { rewrite Hh. unfold upd. apply Nat.eqb_neq in Hne. rewrite Hne. reflexivity. }
        rewrite Er in *. exists g'. split; auto. split.
        * intros [->|Hr]; [congruence|auto].
        * intros C. apply K2. intros Hr. apply C. right; auto.
  Qed.
  Lemma mutate_child_step : forall (Rel : list gv -> list gv -> Prop) f, (forall g, rnd_only (f g)) ->
    (forall g s c s', f g s = Ok c s' -> Rel g c) -> mut_step Rel (mutate_child f).
  Proof.
    intros Rel f Hr Hf r s u s' H. unfold mutate_child in H. bd H i s1 R1. apply get_ok in R1. destruct R1 as [-> ->].
    bd H g s2 R2. pose proof (frame_heap_rnd _ _ _ _ (Hr _) R2) as (E1 & E2 & E3 & E4 & E5).
    apply modify_ok in H. subst s'. exists g. split; [eapply Hf; eauto|].
    cbn [heap set_heap next log rnd_seed prng]. rewrite E1. auto.
  Qed.

  Lemma mutation_execute_ok : forall m gd s m' s', NoDup (children gd) ->
    mutation_execute m gd s = Ok m' s' ->
    mutates (mutated m (gspec_of (population gd))) (children gd) s s' /\
    match m with MutBin _ => exists x, m' = MutBin (LFloat x) | _ => m' = m end.
  Proof.
    intros m gd s m' s' ND H. destruct m as [k level|l|level]; cbn [mutation_execute] in H.
    - bd H u s1 R1. apply ret_ok in H. destruct H as [-> ->]. split; auto.
      eapply mut_step_iter; [|exact ND|exact R1]. clear. intros r s u s' H. unfold combi_child in H.
      bd H b s1 R1. pose proof (frame_heap_rnd _ _ _ _ (rnd_only_determines _) R1) as (E1 & E2 & E3 & E4 & E5).
      destruct b.
      + apply (mutate_child_step (combi_result k)) in H; [|apply rnd_only_combi|].
        * destruct H as (g & Rg & Hh & N & L & S1 & S2). exists g. rewrite E1 in *. split; [right; auto|].
          repeat split; congruence.
        * intros g s0 c s0' H0. destruct (le_lt_dec (combi_min k) (length g)) as [Hl|Hl].
          -- apply (possible_sound _ _ _ _ _ (combi_possible k g Hl)) in H0. tauto.
          -- rewrite combi_short in H0 by auto. discriminate.
      + apply ret_ok in H. destruct H as [_ ->]. exists (genotype (heap s r)). rewrite set_genotype_same.
        split; [left; auto|]. split; [|auto]. intros r'. rewrite E1. unfold upd. destruct (Nat.eqb_spec r' r) as [->|]; auto.
    - destruct (gspec_of (population gd)); try discriminate. bd H level s1 R1. apply lift_ok in R1. destruct R1 as [R1 ->].
      bd H u s2 R2. apply ret_ok in H. destruct H as [-> ->]. split; [|eauto].
      eapply mut_step_iter; [|exact ND|exact R2]. apply mutate_child_step; [apply rnd_only_bin|].
      intros g s0 c s0' H0. apply (possible_sound _ _ _ _ _ (bin_possible level g)) in H0. destruct H0 as [F _].
      eapply Forall2_impl; [|exact F]. intros x y (k & Hk & ->). destruct (fires level k); auto.
    - assert (Other : forall ps, Forall (fun p => p = COther) ps -> (u <- miter (mutate_child (cat_mutation level ps)) (children gd) ;; ret (MutCat level)) s = Ok m' s' ->
        mutates (fun g c => length c = length g /\ c = g) (children gd) s s' /\ m' = MutCat level).
      { intros ps Hps H0. bd H0 u s1 R1. apply ret_ok in H0. destruct H0 as [-> ->]. split; auto.
        eapply mut_step_iter; [|exact ND|exact R1]. apply mutate_child_step; [intros; apply rnd_only_cat|].
        intros g s0 c s0' H0. apply cat_other in H0; auto. subst. auto. }
      destruct (gspec_of (population gd)) as [gray gens bp| |].
      { eapply Other in H; [exact H|]. apply Forall_forall. intros p Hp. apply in_map_iff in Hp. destruct Hp as (? & <- & _). reflexivity. }
      2: { eapply Other in H; [exact H|]. repeat constructor. }
      bd H u s1 R1. apply ret_ok in H. destruct H as [-> ->].
      split; auto. eapply mut_step_iter; [|exact ND|exact R1]. apply mutate_child_step; [intros; apply rnd_only_cat|].
      intros g s0 c s0' H0. apply cat_mutation_ok in H0. destruct H0 as [L K]. split; auto.
      intros i p x y Hp Hx Hy. destruct (K _ _ _ _ Hp Hx Hy) as (k & Hk & R).
      destruct (_ && _); auto.
  Qed.

  (** No exception. *)
  Definition mut_pre (m : mutation) (gs : gspec) (g : list gv) : Prop :=
    match m with
    | MutCombi k _ => (combi_min k <= length g)%nat
    | MutBin _ => True
    | MutCat _ => match gs with GenCat ps => Forall2 pool_ok ps g | _ => False end
    end.
  Definition mut_spec_ok (m : mutation) (gs : gspec) : Prop :=
    match m with
    | MutBin l => match gs with
        | GenBinary _ _ bp => match l with
            | LFloat _ => True | LStr _ => neqb (nofZ (last (idx_bits bp) 0)) nzero = false | LOther => False end
        | _ => False end
    | MutCat _ => match gs with GenCat _ => True | _ => False end
    | MutCombi _ _ => True
    end.
  Lemma update_level_total : forall l n, match l with LFloat _ => True | LStr _ => neqb (nofZ n) nzero = false | LOther => False end ->
    exists x, update_level l n = inr x.
  Proof.
    intros [s|x|] n H; cbn [update_level]; [|eauto|destruct H]. unfold py_div. rewrite H.
    destruct (String.eqb s "weak"), (String.eqb s "normal"); eauto.
  Qed.
  Lemma safe_iter_children : forall (Rel : list gv -> list gv -> Prop) f (pre : list gv -> Prop) cs s, mut_step Rel f -> NoDup cs ->
    (forall r, In r cs -> pre (genotype (heap s r))) ->
    (forall r s, pre (genotype (heap s r)) -> safe (f r) s) -> safe (miter f cs) s.
  Proof.
    intros Rel f pre cs s Hf. revert s. induction cs as [|c cs IH]; intros s ND Hp Hs; cbn [miter]; [apply safe_ret|].
    inversion ND as [|? ? Hni ND']; subst.
    apply safe_bind; [apply Hs, Hp; left; auto|]. intros u s1 R1. apply IH; auto.
    intros r Hr. apply Hf in R1. destruct R1 as (g & _ & Hh & _). rewrite Hh. unfold upd.
    destruct (Nat.eqb_spec r c) as [->|]; [contradiction|]. apply Hp. right; auto.
  Qed.
  Lemma combi_child_step : forall k level, mut_step (fun g c => c = g \/ combi_result k g c) (combi_child k level).
  Proof.
    intros k level r s u s' H. unfold combi_child in H.
    bd H b s1 R1. pose proof (frame_heap_rnd _ _ _ _ (rnd_only_determines _) R1) as (E1 & E2 & E3 & E4 & E5).
    destruct b.
    + apply (mutate_child_step (combi_result k)) in H; [|apply rnd_only_combi|].
      * destruct H as (g & Rg & Hh & N & L & S1 & S2). exists g. rewrite E1 in *. split; [right; auto|].
        repeat split; congruence.
      * intros g s0 c s0' H0. destruct (le_lt_dec (combi_min k) (length g)) as [Hl|Hl].
        -- apply (possible_sound _ _ _ _ _ (combi_possible k g Hl)) in H0. tauto.
        -- rewrite combi_short in H0 by auto. discriminate.
    + apply ret_ok in H. destruct H as [_ ->]. exists (genotype (heap s r)). rewrite set_genotype_same.
      split; [left; auto|]. split; [|auto]. intros r'. rewrite E1. unfold upd. destruct (Nat.eqb_spec r' r) as [->|]; auto.
  Qed.
  Lemma mutation_execute_safe : forall m gd s, NoDup (children gd) ->
    mut_spec_ok m (gspec_of (population gd)) ->
    (forall r, In r (children gd) -> mut_pre m (gspec_of (population gd)) (genotype (heap s r))) ->
    safe (mutation_execute m gd) s.
  Proof.
    intros m gd s ND Hm Hp. destruct m as [k level|l|level]; cbn [mutation_execute].
    - apply safe_bind; [|intros; apply safe_ret].
      eapply safe_iter_children with (pre := fun g => (combi_min k <= length g)%nat); [apply combi_child_step|auto|exact Hp|].
      intros r s0 H0. unfold combi_child. apply safe_bind; [eapply safe_possible, determines_possible|].
      intros b s1 R1. destruct b; [|apply safe_ret].
      pose proof (frame_heap_rnd _ _ _ _ (rnd_only_determines _) R1) as (E1 & _).
      unfold mutate_child. apply safe_bind; [apply safe_get|]. intros i s2 R2. apply get_ok in R2. destruct R2 as [-> ->].
      apply safe_bind; [eapply safe_possible, combi_possible; rewrite E1; auto|]. intros; apply safe_modify.
    - cbn [mut_spec_ok] in Hm. destruct (gspec_of (population gd)) as [gr gens bp| |]; try tauto.
      destruct (update_level_total l (last (idx_bits bp) 0) Hm) as [x Hx].
      apply safe_bind; [eapply safe_lift; eauto|]. intros y s1 R1. apply safe_bind; [|intros; apply safe_ret].
      eapply safe_iter_children with (Rel := fun _ _ => True) (pre := fun _ => True); auto.
      + apply mutate_child_step; [apply rnd_only_bin|auto].
      + intros r s0 _. unfold mutate_child. apply safe_bind; [apply safe_get|]. intros.
        apply safe_bind; [eapply safe_possible, bin_possible|]. intros; apply safe_modify.
    - unfold mut_pre in Hp. cbn [mut_spec_ok] in Hm.
      destruct (gspec_of (population gd)) as [gr gens bp|ps|a b k]; try tauto.
      apply safe_bind; [|intros; apply safe_ret].
      eapply safe_iter_children with (Rel := fun _ _ => True) (pre := Forall2 pool_ok ps); auto.
      + apply mutate_child_step; [intros; apply rnd_only_cat|auto].
      + intros r s0 H0. unfold mutate_child. apply safe_bind; [apply safe_get|]. intros i s1 R1.
        apply get_ok in R1. destruct R1 as [-> ->].
        apply safe_bind; [eapply safe_possible, cat_possible; auto|]. intros; apply safe_modify.
  Qed.
End MutationProofs.
