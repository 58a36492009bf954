(** Mutations: C16-C22. *)
From Coq Require Import String.
From Coq Require Import ZArith QArith Qround List Bool Lia Lqa Permutation.
From Verif Require Import Spec Num State Binary Population GaData Mutation Fitness Driver ListLemmas Rnd Exec Laws
  CrossoverProofs MutationProofs Demo.
Import ListNotations.
Open Scope list_scope.
Open Scope Z_scope.

Section Mutations.
  Context {NO : NumOps}.

  (** C16.  One application, and the whole execute step: every child keeps its
      multiset of genes and its other fields, everybody else is untouched. *)
  Theorem C16_permutes : forall k (g c : list gv) s s',
    combi_mutation k g s = Ok c s' -> Permutation g c.
  Proof.
    intros k g c s s' H. destruct (le_lt_dec (combi_min k) (length g)) as [Hl|Hl].
    - apply (possible_sound _ _ _ _ _ (combi_possible k g Hl)) in H. eapply combi_perm, H.
    - rewrite combi_short in H by auto. discriminate.
  Qed.
  Theorem C16_execute : forall k level gd s m' s', NoDup (children gd) ->
    mutation_execute (MutCombi k level) gd s = Ok m' s' ->
    log s' = log s /\ next s' = next s /\
    forall r, exists c, heap s' r = set_genotype c (heap s r) /\
      Permutation (genotype (heap s r)) c /\ (~ In r (children gd) -> heap s' r = heap s r).
  Proof.
    intros k level gd s m' s' ND H. apply mutation_execute_ok in H; auto.
    destruct H as [(N & L & _ & _ & K) _]. split; auto. split; auto. intros r.
    destruct (K r) as (c & E & K1 & K2). exists c. split; auto. split.
    - destruct (in_dec Nat.eq_dec r (children gd)) as [I|I].
      + destruct (K1 I) as [->|R]; auto. eapply combi_perm; eauto.
      + rewrite (K2 I). auto.
    - intros I. rewrite E, (K2 I). apply set_genotype_same.
  Qed.

  (** C17. *)
  Theorem C17_movement : forall g : list gv, (2 <= length g)%nat -> possible (combi_mutation Movement g) (moved g).
  Proof. exact movement_possible. Qed.
  Theorem C17_swap : forall g : list gv, (2 <= length g)%nat -> possible (combi_mutation Swap_ g) (swapped g).
  Proof. exact swap_possible. Qed.
  Theorem C17_inversion : forall g : list gv, (2 <= length g)%nat -> possible (combi_mutation Inversion g) (inverted g).
  Proof. exact inversion_possible. Qed.
  Theorem C17_shift : forall g : list gv, (3 <= length g)%nat -> possible (combi_mutation Shift g) (shifted g).
  Proof. exact shift_possible. Qed.
  Theorem C17_too_short : forall k (g : list gv) s,
    (length g < match k with Shift => 3 | _ => 2 end)%nat -> combi_mutation k g s = Err ValueError.
  Proof. intros k g s H. apply combi_short. destruct k; exact H. Qed.

  (** C18.  The result differs at some position in the sense of Python's ==, for any
      arithmetic whose comparable numbers satisfy [ok]. *)
  Theorem C18_changes : forall (ok : num -> Prop), NumOrder NO ok ->
    forall k (g c : list gv) s s', Forall (gene_ok (ok := ok)) g -> dup_free gv_eqb g ->
    combi_mutation k g s = Ok c s' ->
    exists p x y, nth_error c p = Some x /\ nth_error g p = Some y /\ gv_eqb x y = false.
  Proof.
    intros ok NL k g c s s' G D H. destruct (le_lt_dec (combi_min k) (length g)) as [Hl|Hl].
    - apply (possible_sound _ _ _ _ _ (combi_possible k g Hl)) in H. destruct H as [H _].
      apply combi_moves in H. destruct H as (p & p' & H1 & H2 & H3 & E).
      destruct (nth_error_some_lt g p H1) as [y Hy]. destruct (nth_error_some_lt g p' H2) as [x Hx].
      exists p, x, y. split; [congruence|]. split; auto. apply (dup_free_nth NL g G D p' p); auto.
    - rewrite combi_short in H by auto. discriminate.
  Qed.

  (** C19.  The draws ks, one per position, decide which bits are flipped. *)
  Theorem C19_draws_decide : forall level bs ks t s, length ks = length bs ->
    Forall (fun k => 0 <= k <= 999) ks ->
    bin_mutation level (map GBit bs) (set_tape (papp ks t) s) =
    Ok (map (fun kb => GBit (if nleb (nofZ (fst kb)) (nmul level (nofZ 1000)) then negb (snd kb) else snd kb))
            (combine ks bs)) (set_tape t s).
  Proof.
    intros level bs ks t s L F. rewrite bin_run by (rewrite ?map_length; auto). f_equal.
    clear. revert bs. induction ks as [|k ks IH]; intros [|b bs]; simpl; auto. rewrite IH. unfold fires.
    destruct (nleb _ _), b; reflexivity.
  Qed.
  (** When some draw fires and some does not, the possible results are all bit strings
      of the same length. *)
  Theorem C19_every_subset : forall level bs,
    (exists k, 0 <= k <= 999 /\ nleb (nofZ k) (nmul level (nofZ 1000)) = true) ->
    (exists k, 0 <= k <= 999 /\ nleb (nofZ k) (nmul level (nofZ 1000)) = false) ->
    possible (bin_mutation level (map GBit bs))
             (fun c => exists bs', c = map GBit bs' /\ length bs' = length bs).
  Proof.
    intros level bs (k1 & H1 & F1) (k2 & H2 & F2). eapply possible_iff; [apply bin_possible|].
    intros c. split.
    - revert c. induction bs as [|b bs IH]; intros c H; inversion H as [|? y ? ys Hy Hys]; subst.
      + exists []. auto.
      + destruct (IH _ Hys) as (bs' & -> & L). destruct Hy as (k & Hk & ->).
        exists ((if fires level k then negb b else b) :: bs'). simpl. split; [|lia]. f_equal.
        destruct (fires level k), b; reflexivity.
    - intros (bs' & -> & L). revert bs' L. induction bs as [|b bs IH]; intros [|b' bs'] L; simpl in *; try lia; constructor.
      + destruct (Bool.bool_dec b b') as [->|N].
        * exists k2. unfold fires. rewrite F2. auto.
        * exists k1. unfold fires. rewrite F1. split; auto. destruct b, b'; try congruence; reflexivity.
      + apply IH. lia.
  Qed.
  Theorem C19_only_children : forall l gd s m' s', NoDup (children gd) ->
    mutation_execute (MutBin l) gd s = Ok m' s' ->
    log s' = log s /\ next s' = next s /\
    forall r, exists c, heap s' r = set_genotype c (heap s r) /\ length c = length (genotype (heap s r)) /\
      (~ In r (children gd) -> heap s' r = heap s r).
  Proof.
    intros l gd s m' s' ND H. apply mutation_execute_ok in H; auto.
    destruct H as [(N & L & _ & _ & K) _]. split; auto. split; auto. intros r.
    destruct (K r) as (c & E & K1 & K2). exists c. split; auto. split.
    - destruct (in_dec Nat.eq_dec r (children gd)) as [I|I].
      + specialize (K1 I). apply Forall2_length in K1. auto.
      + rewrite (K2 I). auto.
    - intros I. rewrite E, (K2 I). apply set_genotype_same.
  Qed.

  (** C20.  Every successful run; every draw; the exception. *)
  Theorem C20_domain : forall level ps g s c s', length ps = length g ->
    cat_mutation level ps g s = Ok c s' ->
    length c = length g /\
    forall i p x y, nth_error ps i = Some p -> nth_error g i = Some x -> nth_error c i = Some y ->
      y = x \/ (gv_eqb y x = false /\
        match p with
        | CList l => In y l /\ (2 <= length l)%nat
        | CRange a b stp => exists z, y = GInt z /\ In z (py_range a (b + 1) stp) /\ 2 <= range_len a (b + 1) stp
        | COther => False
        end).
  Proof.
    intros level ps g s c s' _ H. apply cat_mutation_ok in H. destruct H as [L K]. split; auto.
    intros i p x y Hp Hx Hy. destruct (K _ _ _ _ Hp Hx Hy) as (k & Hk & R).
    destruct (fires level k && (1 <? zlen (pool_values p))) eqn:E; auto. right. destruct R as [R1 R2]. split; auto.
    apply andb_true_iff in E. destruct E as [_ E]. apply Z.ltb_lt in E. unfold zlen in E.
    destruct p as [a b stp|l|]; cbn [pool_values] in *.
    - apply in_map_iff in R1. destruct R1 as (z & <- & Hz). exists z. split; auto. split; auto.
      unfold py_range in E. rewrite !map_length, seq_length in E. lia.
    - split; auto. lia.
    - destruct R1.
  Qed.
  (** Exactly which values one gene can take, for a list pool and a level at which some
      draw fires and some does not. *)
  Theorem C20_list_values : forall level l x, (2 <= length l)%nat ->
    (exists y, In y l /\ gv_eqb y x = false) ->
    (exists k, 0 <= k <= 999 /\ nleb (nofZ k) (nmul level (nofZ 1000)) = true) ->
    (exists k, 0 <= k <= 999 /\ nleb (nofZ k) (nmul level (nofZ 1000)) = false) ->
    possible (cat_gene level (CList l) x) (fun y => y = x \/ (In y l /\ gv_eqb y x = false)).
  Proof.
    intros level l x Hl Hx (k1 & H1 & F1) (k2 & H2 & F2). eapply possible_iff.
    - apply cat_gene_possible. split; auto.
    - intros y. unfold cat_result, fires. cbn [pool_values].
      assert (E : (1 <? zlen l) = true) by (apply Z.ltb_lt; unfold zlen; lia). rewrite E. split.
      + intros (k & Hk & R). rewrite andb_true_r in R. destruct (nleb (nofZ k) (nmul level (nofZ 1000))); auto.
      + intros [->|R]; [exists k2; rewrite F2|exists k1; rewrite F1]; cbn [andb]; auto.
  Qed.
  Theorem C20_range_values : forall level a b stp x, stp <> 0 -> 2 <= range_len a (b + 1) stp ->
    (exists k, 0 <= k <= 999 /\ nleb (nofZ k) (nmul level (nofZ 1000)) = true) ->
    (exists k, 0 <= k <= 999 /\ nleb (nofZ k) (nmul level (nofZ 1000)) = false) ->
    possible (cat_gene level (CRange a b stp) x)
      (fun y => y = x \/ (exists z, y = GInt z /\ In z (py_range a (b + 1) stp) /\ gv_eqb y x = false)).
  Proof.
    intros level a b stp x Hs Hl (k1 & H1 & F1) (k2 & H2 & F2).
    eapply possible_iff.
    - apply cat_gene_possible. split; auto. right. cbn [pool_values].
      assert (I0 : In a (py_range a (b + 1) stp)) by (apply in_py_range; exists 0; split; lia).
      assert (I1 : In (a + stp) (py_range a (b + 1) stp)) by (apply in_py_range; exists 1; split; lia).
      destruct (gv_eqb (GInt a) x) eqn:E.
      + exists (GInt (a + stp)). split; [apply in_map; auto|]. destruct (gv_eqb (GInt (a + stp)) x) eqn:E'; auto.
        pose proof (gv_eqb_int _ _ _ E E'). lia.
      + exists (GInt a). split; auto. apply in_map; auto.
    - intros y. unfold cat_result, fires. cbn [pool_values].
      assert (E : (1 <? zlen (map GInt (py_range a (b + 1) stp))) = true).
      { apply Z.ltb_lt. unfold zlen, py_range. rewrite !map_length, seq_length. lia. } rewrite E. split.
      + intros (k & Hk & R). rewrite andb_true_r in R. destruct (nleb (nofZ k) (nmul level (nofZ 1000))); auto. right. destruct R as [R1 R2].
        apply in_map_iff in R1. destruct R1 as (z & <- & Hz). exists z. auto.
      + intros [->|(z & -> & Hz & N)]; [exists k2; rewrite F2; cbn [andb]; auto|exists k1; rewrite F1; cbn [andb]]. split; auto.
        split; [apply in_map; auto|auto].
  Qed.
  Theorem C20_single_valued : forall level p x s y s', cat_gene level p x s = Ok y s' ->
    match p with CList l => (length l <= 1)%nat | CRange a b stp => range_len a (b + 1) stp <= 1 | COther => False end ->
    y = x.
  Proof.
    intros level p x s y s' H Hp. apply cat_gene_ok in H. destruct H as (k & Hk & R).
    destruct (1 <? zlen (pool_values p)) eqn:E; [|rewrite andb_false_r in R; auto].
    apply Z.ltb_lt in E. unfold zlen in E. destruct p as [a b stp|l|]; cbn [pool_values] in *; [|lia|tauto].
    unfold py_range in E. rewrite !map_length, seq_length in E. lia.
  Qed.
  Theorem C20_all_equal_raises : forall level l x k t s, 0 <= k <= 999 ->
    nleb (nofZ k) (nmul level (nofZ 1000)) = true ->
    (1 < length l)%nat -> Forall (fun y => gv_eqb y x = true) l ->
    cat_gene level (CList l) x (set_tape (papp [k] t) s) = Err IndexError.
  Proof. exact cat_all_equal_raises. Qed.
  (** When one gene raises, and what: the draw fires, and the pool is a list of several
      values all equal to the current one, a range of step 0, or neither a list nor a range. *)
  Theorem C20_raises : forall level p x k t s e, 0 <= k <= 999 ->
    cat_gene level p x (set_tape (papp [k] t) s) = Err e <->
    nleb (nofZ k) (nmul level (nofZ 1000)) = true /\
    match p with
    | CList l => e = IndexError /\ (1 < length l)%nat /\ Forall (fun y => gv_eqb y x = true) l
    | CRange a b stp => e = ValueError /\ stp = 0
    | COther => e = TypeError
    end.
  Proof.
    intros level p x k t s e Hk.
    assert (Sf : pool_ok p x -> forall s0, cat_gene level p x s0 <> Err e).
    { intros P s0 E. destruct (proj1 (cat_gene_possible level p x P) s0) as (y & t' & E' & _). rewrite E in E'. discriminate E'. }
    assert (Qu : nleb (nofZ k) (nmul level (nofZ 1000)) = false -> cat_gene level p x (set_tape (papp [k] t) s) = Ok x (set_tape t s)).
    { intros F. unfold cat_gene, bind. rewrite determines_run by auto. unfold fires. rewrite F. reflexivity. }
    destruct (nleb (nofZ k) (nmul level (nofZ 1000))) eqn:F; [|rewrite (Qu eq_refl); split; [discriminate|intros [C _]; discriminate C]].
    destruct p as [a b stp|l|].
    - destruct (Z.eq_dec stp 0) as [->|N].
      + unfold cat_gene, bind. rewrite determines_run by auto. unfold fires. rewrite F. cbn [Z.eqb]. unfold raise. split; [intros E; injection E as <-; auto|intros (_ & -> & _); reflexivity].
      + split; [|intros (_ & _ & C); contradiction]. intros E. exfalso. refine (Sf _ _ E). split; auto. cbn [pool_values]. rewrite map_length, py_range_length.
        destruct (Z_le_gt_dec (range_len a (b + 1) stp) 1) as [L|L]; [left; lia|right].
        assert (I0 : In a (py_range a (b + 1) stp)) by (apply in_py_range; exists 0; split; lia).
        assert (I1 : In (a + stp) (py_range a (b + 1) stp)) by (apply in_py_range; exists 1; split; lia).
        destruct (gv_eqb (GInt a) x) eqn:E1; [exists (GInt (a + stp))|exists (GInt a)]; (split; [apply in_map; auto|auto]).
        destruct (gv_eqb (GInt (a + stp)) x) eqn:E'; auto. pose proof (gv_eqb_int _ _ _ E1 E'). lia.
    - split.
      + intros E. split; auto. destruct (le_gt_dec (length l) 1) as [L|L]; [exfalso; refine (Sf _ _ E); split; [exact I|left; exact L]|].
        destruct (forallb (fun y => gv_eqb y x) l) eqn:A.
        * rewrite forallb_forall in A. apply Forall_forall in A. rewrite cat_all_equal_raises in E by auto. injection E as <-. auto.
        * exfalso. refine (Sf _ _ E). split; [exact I|right]. cbn [pool_values]. clear - A. induction l as [|y l IH]; [discriminate|]. cbn [forallb] in A.
          destruct (gv_eqb y x) eqn:Ey; [|exists y; split; [left; reflexivity|exact Ey]]. destruct (IH A) as (z & Hz & Ez). exists z. split; [right; exact Hz|exact Ez].
      + intros (_ & -> & L & A). apply cat_all_equal_raises; auto.
    - unfold cat_gene, bind. rewrite determines_run by auto. unfold fires. rewrite F. unfold raise. split; [intros E; injection E as <-; auto|intros (_ & ->); reflexivity].
  Qed.
  (** A genotype longer than the description raises as soon as an extra gene fires. *)
  Theorem C20_too_long : forall level x g k t s, 0 <= k <= 999 -> nleb (nofZ k) (nmul level (nofZ 1000)) = true ->
    cat_mutation level [] (x :: g) (set_tape (papp [k] t) s) = Err IndexError.
  Proof. intros level x g k t s Hk F. cbn [cat_mutation]. unfold bind. rewrite determines_run by auto. unfold fires. rewrite F. reflexivity. Qed.
  Theorem C20_only_children : forall level ps gd s m' s', NoDup (children gd) ->
    gspec_of (population gd) = GenCat ps -> mutation_execute (MutCat level) gd s = Ok m' s' ->
    log s' = log s /\ next s' = next s /\
    forall r, exists c, heap s' r = set_genotype c (heap s r) /\ length c = length (genotype (heap s r)) /\
      (~ In r (children gd) -> heap s' r = heap s r).
  Proof.
    intros level ps gd s m' s' ND G H. apply mutation_execute_ok in H; auto.
    destruct H as [(N & L & _ & _ & K) _]. split; auto. split; auto. intros r.
    destruct (K r) as (c & E & K1 & K2). exists c. split; auto. split.
    - destruct (in_dec Nat.eq_dec r (children gd)) as [I|I].
      + destruct (K1 I) as [L' _]. auto.
      + rewrite (K2 I). auto.
    - intros I. rewrite E, (K2 I). apply set_genotype_same.
  Qed.
End Mutations.

(** C21 (exact arithmetic): how many of the 1000 equally likely draws fire. *)
Lemma count_le : forall n F, 0 <= F ->
  Z.of_nat (length (filter (fun k => Z.leb k F) (map Z.of_nat (seq 0 n)))) = Z.min (Z.of_nat n) (F + 1).
Proof.
  intros n F HF. induction n as [|n IH]; [simpl; lia|].
  rewrite seq_S, map_app, filter_app, app_length. cbn [map filter plus].
  destruct (Z.of_nat n <=? F) eqn:E; [apply Z.leb_le in E|apply Z.leb_gt in E]; cbn [length]; lia.
Qed.
Theorem C21_probability : forall level : Q, (0 <= level <= 1)%Q ->
  Z.of_nat (length (filter (fun k => @nleb Qops (@nofZ Qops k) (@nmul Qops level (@nofZ Qops 1000))) (zrange 0 1000)))
    = Z.min 1000 (Qfloor (1000 * level) + 1) /\
  (forall b t s k, 0 <= k <= 999 -> @determines_mutation Qops level (@set_tape Qops (papp [k] t) s) = Ok b (@set_tape Qops t s) <->
     b = @nleb Qops (@nofZ Qops k) (@nmul Qops level (@nofZ Qops 1000))).
Proof.
  intros level Hl. split.
  - assert (E : forall k, @nleb Qops (@nofZ Qops k) (@nmul Qops level (@nofZ Qops 1000)) = Z.leb k (Qfloor (1000 * level))).
    { intros k. change (Qle_bool (inject_Z k) (level * inject_Z 1000) = (k <=? Qfloor (1000 * level))).
      apply eq_iff_eq_true. rewrite Qle_bool_iff, Z.leb_le.
      assert (Eq : (level * inject_Z 1000 == 1000 * level)%Q) by (rewrite Qmult_comm; reflexivity). rewrite Eq.
      split.
      - intros H. rewrite <- (Qfloor_Z k). apply Qfloor_resp_le. auto.
      - intros H. eapply Qle_trans; [|apply Qfloor_le]. rewrite <- Zle_Qle. auto. }
    erewrite filter_ext by (intros; apply E). unfold zrange, py_range.
    erewrite map_ext with (g := Z.of_nat) by (intros; lia).
    change (Z.to_nat (range_len 0 1000 1)) with 1000%nat. rewrite count_le; [reflexivity|].
    change 0 with (Qfloor 0). apply Qfloor_resp_le. lra.
  - intros b t s k Hk. rewrite (@determines_run Qops) by auto. unfold fires. split; [intros H; inversion H; auto|intros ->; auto].
Qed.
Corollary C21_level_one : forall (t : nat -> Z) s k, 0 <= k <= 999 ->
  @determines_mutation Qops (1#1)%Q (@set_tape Qops (papp [k] t) s) = Ok true (@set_tape Qops t s).
Proof.
  intros. rewrite (@determines_run Qops) by auto. f_equal. unfold fires. simpl. apply Qle_bool_iff.
  unfold Qle. simpl. lia.
Qed.
Corollary C21_level_zero : forall (t : nat -> Z) s k, 0 <= k <= 999 ->
  @determines_mutation Qops (0#1)%Q (@set_tape Qops (papp [k] t) s) = Ok (k =? 0) (@set_tape Qops t s).
Proof.
  intros t s k Hk. rewrite (@determines_run Qops) by auto. f_equal. unfold fires. simpl. apply eq_iff_eq_true.
  rewrite Qle_bool_iff, Z.eqb_eq. unfold Qle. simpl. lia.
Qed.

(** C22. *)
Section Levels.
  Context {NO : NumOps}.
  (** A value accepted by the combinatorial and bit-string classes. *)
  Definition good_level (l : lvl) : Prop :=
    match l with
    | LStr s => In s ["weak"; "normal"; "strong"]%string
    | LFloat x => nltb x (nofZ 0) = false /\ nltb (nofZ 1) x = false
    | LOther => False
    end.
  Theorem C22_combinatory : forall k l,
    (good_level l -> exists x, new_combi k l = inr (MutCombi k x) /\
       match l with
       | LStr s => (s = "weak"%string /\ x = ndiv_raw (nofZ 3) (nofZ 100)) \/
                   (s = "normal"%string /\ x = ndiv_raw (nofZ 1) (nofZ 10)) \/
                   (s = "strong"%string /\ x = ndiv_raw (nofZ 3) (nofZ 10))
       | LFloat y => x = y
       | LOther => False
       end) /\
    (~ good_level l -> exists msg, new_combi k l = inl (PyException msg)).
  Proof.
    intros k [s|x|]; cbn [new_combi good_level].
    - split.
      + intros [<-|[<-|[<-|[]]]]; cbn; eexists; (split; [reflexivity|]); unfold dec; tauto.
      + intros H. destruct (String.eqb_spec s "weak") as [->|]; [elim H; simpl; auto|].
        destruct (String.eqb_spec s "normal") as [->|]; [elim H; simpl; auto|].
        destruct (String.eqb_spec s "strong") as [->|]; [elim H; simpl; auto|]. eexists. reflexivity.
    - unfold out_of_01. split.
      + intros [-> ->]. cbn. eauto.
      + intros H. destruct (nltb x (nofZ 0)) eqn:E1; [eexists; reflexivity|]. destruct (nltb (nofZ 1) x) eqn:E2; [eexists; reflexivity|].
        elim H. auto.
    - split; [tauto|]. intros _. eexists. reflexivity.
  Qed.
  Theorem C22_bit_string : forall l,
    (good_level l -> new_bin l = inr (MutBin l)) /\
    (~ good_level l -> exists msg, new_bin l = inl (PyException msg)).
  Proof.
    intros [s|x|]; cbn [new_bin good_level].
    - split.
      + intros [<-|[<-|[<-|[]]]]; reflexivity.
      + intros H. destruct (String.eqb_spec s "weak") as [->|]; [elim H; simpl; auto|].
        destruct (String.eqb_spec s "normal") as [->|]; [elim H; simpl; auto|].
        destruct (String.eqb_spec s "strong") as [->|]; [elim H; simpl; auto|]. eexists. reflexivity.
    - unfold out_of_01. split.
      + intros [-> ->]. reflexivity.
      + intros H. destruct (nltb x (nofZ 0)) eqn:E1; [eexists; reflexivity|]. destruct (nltb (nofZ 1) x) eqn:E2; [eexists; reflexivity|].
        elim H. auto.
    - split; [tauto|]. intros _. eexists. reflexivity.
  Qed.
  (** The first execute of a bit-string mutation fixes the level from the total number
      of bits len; afterwards the level is a number and stays. *)
  Theorem C22_bit_string_execute : forall l gd s m' s' gray gens bp, NoDup (children gd) ->
    gspec_of (population gd) = GenBinary gray gens bp ->
    mutation_execute (MutBin l) gd s = Ok m' s' ->
    let len := nofZ (last (idx_bits bp) 0) in
    exists x, m' = MutBin (LFloat x) /\
      match l with
      | LFloat y => x = y
      | LStr t => neqb len (nofZ 0) = false /\
          x = ndiv_raw (if String.eqb t "weak" then ndiv_raw (nofZ 3) (nofZ 10)
                        else if String.eqb t "normal" then nofZ 1 else nofZ 3) len
      | LOther => False
      end.
  Proof.
    intros l gd s m' s' gray gens bp ND G H. cbv zeta. cbn [mutation_execute] in H. rewrite G in H.
    bd H level s1 R1. apply lift_ok in R1. destruct R1 as [R1 _]. bd H u s2 R2. apply ret_ok in H. destruct H as [-> _].
    exists level. split; auto. destruct l as [t|y|]; cbn [update_level] in R1; [|congruence|discriminate].
    unfold py_div, nzero in R1. unfold dec in R1.
    destruct (String.eqb t "weak"), (String.eqb t "normal"); destruct (neqb _ _) eqn:E; inversion R1; subst; auto.
  Qed.
  Theorem C22_categorical : forall l,
    match l with
    | LStr _ => new_cat l = inl AttributeError
    | LFloat x => (nltb x (nofZ 0) = false /\ nltb (nofZ 1) x = false -> new_cat l = inr (MutCat x)) /\
                  (nltb x (nofZ 0) = true \/ nltb (nofZ 1) x = true -> exists msg, new_cat l = inl (PyException msg))
    | LOther => exists msg, new_cat l = inl (PyException msg)
    end.
  Proof.
    intros [s|x|]; cbn [new_cat]; [reflexivity| |eexists; reflexivity]. unfold out_of_01. split.
    - intros [-> ->]. reflexivity.
    - intros [->| ->]; cbn; [|rewrite orb_true_r]; eexists; reflexivity.
  Qed.
  (** CategoricalGA with a string level (the default is a string) always raises. *)
  Theorem C22_categorical_ga_cannot_run : forall fuel cf gens t s, cf_mutation_lvl cf = LStr t ->
    exists e, categorical_ga fuel cf gens s = Err e.
  Proof.
    intros fuel cf gens t s H. destruct (categorical_ga fuel cf gens s) as [r s'|e|] eqn:E; [|eauto|].
    - exfalso. unfold categorical_ga, ga_optimize in E. bd E u s1 R1. bd E p s2 R2. bd E fc s3 R3. bd E m s4 R4.
      rewrite H in R4. discriminate.
    - exfalso. unfold categorical_ga, ga_optimize in E. unfold bind in E. 
      destruct (do_seed s) eqn:E1; try discriminate; [|unfold do_seed in E1; destruct (rnd_seed s); discriminate].
      unfold lift in E. destruct (set_params _ _ _); try discriminate.
      destruct (new_fitness _ _ _ _ _ _); try discriminate. rewrite H in E. discriminate.
  Qed.
End Levels.

(** Concrete runs. *)
Local Existing Instance Qops.
Definition C16_state := world [ind (ints [1;2;3;4]) (q 1); ind (ints [4;3;2;1]) SVNone] [0; 1; 2].
Definition C16_gd : gadata := set_children [1]%nat (gd_of (cat_pop 1)).
Example C16_example : NoDup (children C16_gd) /\
  observe (fun m s' => (m, genotype (heap s' 1%nat))) (mutation_execute (MutCombi Movement (1#10)) C16_gd C16_state)
    = Some (MutCombi Movement (1#10), ints [4;2;1;3]).
Proof. split; [repeat constructor; simpl; tauto|]. run. Qed.
Example C17_example : value (combi_mutation Shift (ints [1;2;3;4;5]) (world [] [1; 0; 1])) = Some (ints [3;4;1;2;5]).
Proof. run. Qed.
Example C17_inversion_example : value (combi_mutation Inversion (ints [1;2;3;4;5]) (world [] [3; 1])) = Some (ints [1;4;3;2;5]).
Proof. run. Qed.
Example C18_example : dup_free gv_eqb (ints [1;2;3]) /\ Forall (gene_ok (ok := fun _ => True)) (ints [1;2;3]) /\
  value (combi_mutation Swap_ (ints [1;2;3]) (world [] [2; 0])) = Some (ints [3;2;1]).
Proof. split; [repeat constructor|]. split; [repeat constructor|]. run. Qed.
Example C19_example :
  (exists k, 0 <= k <= 999 /\ nleb (nofZ k) (nmul (1#10) (nofZ 1000)) = true) /\
  (exists k, 0 <= k <= 999 /\ nleb (nofZ k) (nmul (1#10) (nofZ 1000)) = false) /\
  value (bin_mutation (1#10) (map GBit [true;true;false]) (world [] [100; 101; 0])) = Some (map GBit [false;true;true]).
Proof.
  split; [exists 100; split; [lia|reflexivity]|]. split; [exists 101; split; [lia|reflexivity]|].
  run.
Qed.
Example C20_example :
  value (cat_mutation (1#10) [CList [GStr "a"; GStr "b"; GStr "c"]; CRange 0 10 5; CList [GInt 7]]
     [GStr "b"; GInt 5; GInt 7] (world [] [50; 1; 999; 0])) = Some [GStr "c"; GInt 5; GInt 7].
Proof. run. Qed.
(** A list with repeated values only: the current value can be the only one. *)
Example C20_raises_example : forall s, 
  @cat_gene Qops (1#1)%Q (CRange 0 5 0) (GInt 3) s = Err ValueError /\ @cat_gene Qops (1#1)%Q COther (GInt 3) s = Err TypeError /\
  @cat_gene Qops (1#1)%Q (CRange 5 0 (-5)) (GInt 5) s <> Err ValueError.
Proof.
  assert (K : forall s, exists k t, 0 <= k <= 999 /\ forall p (x : @gv Qops), @cat_gene Qops (1#1)%Q p x s = @cat_gene Qops (1#1)%Q p x (@set_tape Qops (papp [k] t) s)).
  { intros s. exists (tape s 0%nat mod 1000), (fun n => tape s (S n)). assert (0 <= tape s 0%nat mod 1000 < 1000) by (apply Z.mod_pos_bound; lia). split; [lia|]. intros p x.
    unfold cat_gene, bind. rewrite (@determines_run Qops) by lia. unfold determines_mutation, bind, randint, draw. cbn. reflexivity. }
  intros s. destruct (K s) as (k & t & Hk & E). rewrite !E.
  assert (F : @nleb Qops (@nofZ Qops k) (@nmul Qops (1#1)%Q (@nofZ Qops 1000)) = true) by (apply Qle_bool_iff; unfold Qle; cbn; lia).
  split; [|split].
  - apply (@C20_raises Qops); auto.
  - apply (@C20_raises Qops); auto.
  - intros C. apply (@C20_raises Qops) in C; auto. destruct C as (_ & _ & C). discriminate C.
Qed.
Example C20_all_equal_example :
  Forall (fun y => gv_eqb y (GInt 3) = true) [GInt 3; GInt 3] /\
  cat_gene (1#10) (CList [GInt 3; GInt 3]) (GInt 3) (world [] [100]) = Err IndexError.
Proof. split; [repeat constructor|run]. Qed.
Example C21_example :
  Z.of_nat (length (filter (fun k => nleb (nofZ k) (nmul (1#10) (nofZ 1000))) (zrange 0 1000))) = 101.
Proof. run. Qed.
Example C22_example : good_level (LFloat (1#2)) /\ good_level (LStr "weak") /\ ~ good_level (LStr "Weak") /\
  new_combi Swap_ (LStr "Weak") = inl bad_level.
Proof.
  repeat split; simpl; auto. intuition discriminate.
Qed.

Print Assumptions C16_permutes.
Print Assumptions C16_execute.
Print Assumptions C17_movement.
Print Assumptions C17_swap.
Print Assumptions C17_inversion.
Print Assumptions C17_shift.
Print Assumptions C17_too_short.
Print Assumptions C18_changes.
Print Assumptions C19_draws_decide.
Print Assumptions C19_every_subset.
Print Assumptions C19_only_children.
Print Assumptions C20_domain.
Print Assumptions C20_list_values.
Print Assumptions C20_range_values.
Print Assumptions C20_single_valued.
Print Assumptions C20_all_equal_raises.
Print Assumptions C20_raises.
Print Assumptions C20_too_long.
Print Assumptions C20_only_children.
Print Assumptions C21_probability.
Print Assumptions C21_level_one.
Print Assumptions C21_level_zero.
Print Assumptions C22_combinatory.
Print Assumptions C22_bit_string.
Print Assumptions C22_bit_string_execute.
Print Assumptions C22_categorical.
Print Assumptions C22_categorical_ga_cannot_run.
