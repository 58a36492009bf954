(** Statement C76: genes mutate independently, each with the probability of the gate. *)
From Coq Require Import ZArith QArith Qround List Bool Lia Lqa Permutation.
From Verif Require Import Spec Num State Binary Population GaData Mutation
  ListLemmas Rnd Exec Laws MutationProofs Chance ChanceProofs SelChanceProofs PropMutation PropChance Demo.
Import ListNotations.
Open Scope Z_scope.

Fixpoint qprod (l : list Q) : Q := match l with [] => 1%Q | x :: l' => (x * qprod l')%Q end.

Section Independent.
  Context {NO : NumOps}.
  (** A function of the returned value. *)
  Definition on_value {A} (w : A -> Q) (o : outcome A) : Q := match o with Ok a _ => w a | _ => 0%Q end.
  Lemma on_value_blind : forall {A} (w : A -> Q), blind (on_value w).
  Proof. intros A w t o. destruct o; reflexivity. Qed.
  (** Computations that only draw. *)
  Definition draws_only {A} (m : M A) (s : st) : Prop := forall t, exists a u, m (set_tape t s) = Ok a (set_tape u s).
  Lemma draws_occurs : forall {A} (m : M A) s o, draws_only m s -> occurs m s o -> exists a u, o = Ok a (set_tape u s).
  Proof.
    intros A m s o D Ho. destruct (Ho (tape s)) as (t & E). destruct (D t) as (a & u & E'). rewrite E in E'. destruct o as [b s'|e|]; try discriminate. cbn [with_tape] in E'.
    exists b, (tape s'). assert (Es := f_equal (fun o => match o with Ok _ x => x | _ => s end) E'). cbn beta iota in Es. f_equal. clear - Es. destruct s, s'. cbn in *. inversion Es; subst. reflexivity.
  Qed.
  Lemma draws_bind : forall {A B} (m : M A) (k : A -> M B) s, draws_only m s -> (forall a, draws_only (k a) s) -> draws_only (bind m k) s.
  Proof. intros A B m k s H1 H2 t. destruct (H1 t) as (a & u & E). destruct (H2 a u) as (b & v & E'). exists b, v. unfold bind. rewrite E. exact E'. Qed.
  Lemma draws_ret : forall {A} (a : A) s, draws_only (ret a) s.
  Proof. intros A a s t. exists a, t. reflexivity. Qed.
  Lemma draws_even : forall {A} (m : M A) l s, even m l -> draws_only m s.
  Proof. intros A m l s [H _] t. destruct (H (set_tape t s)) as (a & u & _ & E). exists a, u. rewrite E, set_tape_set. reflexivity. Qed.
  Lemma draws_mmap : forall {A B} (f : A -> M B) s l, (forall a, In a l -> draws_only (f a) s) -> draws_only (mmap f l) s.
  Proof.
    intros A B f s l. induction l as [|a l IH]; intros H; [apply draws_ret|]. cbn [mmap]. apply draws_bind; [apply H; left; auto|]. intros b. apply draws_bind; [|intros; apply draws_ret].
    apply IH. intros; apply H; right; auto.
  Qed.
  Lemma averages_moved : forall {A} s u (w : A -> Q) m q, averages s (on_value w) m q -> averages (set_tape u s) (on_value w) m q.
  Proof. intros A s u w m q H. eapply averages_same; [exact H|]. intros t. rewrite set_tape_set. reflexivity. Qed.
  Lemma averages_then : forall {A B} s (m : M A) (k : A -> M B) (w : B -> Q) (r : A -> Q) q, draws_only m s ->
    (forall a u, occurs m s (Ok a (set_tape u s)) -> averages s (on_value w) (k a) (r a)) -> averages s (on_value r) m q -> averages s (on_value w) (bind m k) q.
  Proof.
    intros A B s m k w r q D Hk H. apply (averages_bind s (on_value w) m k (fun a _ => r a)).
    - eapply averages_ext; [exact H|]. intros o _. destruct o; reflexivity.
    - intros a s' Ho. destruct (draws_occurs _ _ _ D Ho) as (a' & u & E). inversion E; subst. apply averages_moved. apply (Hk a' u). exact Ho.
  Qed.
  (** Independent draws: the mean of a product is the product of the means, the mean of a
      sum the sum of the means. *)
  Fixpoint wprod {B} (ws : list (B -> Q)) (bs : list B) : Q :=
    match ws, bs with w :: ws', b :: bs' => (w b * wprod ws' bs')%Q | [], [] => 1%Q | _, _ => 0%Q end.
  Fixpoint wsum {B} (ws : list (B -> Q)) (bs : list B) : Q :=
    match ws, bs with w :: ws', b :: bs' => (w b + wsum ws' bs')%Q | _, _ => 0%Q end.
  Lemma mmap_product : forall {A B} (f : A -> M B) s l ws es, (forall a, In a l -> draws_only (f a) s) -> length ws = length l -> length es = length l ->
    (forall i a w e, nth_error l i = Some a -> nth_error ws i = Some w -> nth_error es i = Some e -> averages s (on_value w) (f a) e) ->
    averages s (on_value (wprod ws)) (mmap f l) (qprod es).
  Proof.
    intros A B f s l. induction l as [|a l IH]; intros [|w ws] [|e es] D L1 L2 H; try discriminate; cbn [mmap].
    - eapply averages_eq; [|apply averages_ret]. reflexivity.
    - cbn [qprod]. assert (H0 := H O a w e eq_refl eq_refl eq_refl).
      assert (IH' : averages s (on_value (wprod ws)) (mmap f l) (qprod es)).
      { apply IH; auto; [intros; apply D; right; auto|]. intros i. apply (H (S i)). }
      apply averages_then with (r := fun b => (qprod es * w b)%Q); [apply D; left; auto| |].
      + intros b u _. apply averages_eq with (w b * qprod es)%Q; [ring|].
        assert (X : averages s (on_value (fun bs => w b * wprod ws bs)%Q) (mmap f l) (w b * qprod es)).
        { eapply averages_ext; [apply averages_scale; exact IH'|]. intros o _. destruct o; cbn [on_value]; ring. }
        apply (averages_bind s (on_value (wprod (w :: ws))) (mmap f l) (fun bs => ret (b :: bs)) (fun bs _ => (w b * wprod ws bs)%Q)).
        * eapply averages_ext; [exact X|]. intros o _. destruct o; reflexivity.
        * intros bs s' _. apply (averages_ret s' (on_value (wprod (w :: ws))) (b :: bs)).
      + apply averages_eq with (qprod es * e)%Q; [ring|]. eapply averages_ext; [apply averages_scale; exact H0|]. intros o _. destruct o; cbn [on_value]; ring.
  Qed.
  Lemma averages_value_const : forall {A} s (m : M A) c w q, draws_only m s -> averages s (on_value w) m q -> averages s (on_value (fun a => c + w a)%Q) m (c + q)%Q.
  Proof.
    intros A s m c w q D H. apply averages_ext with (f := fun o => (c + on_value w o)%Q).
    - clear D. induction H as [m o q Hm Hq|m k mk r q Hk Hm Hr IH Hq].
      + eapply av_done; [exact Hm|]. rewrite Hq. reflexivity.
      + eapply av_draw; [exact Hk|exact Hm|exact IH|]. rewrite Hq. unfold mean. rewrite !map_length, (qsum_plus (fun _ => c) r), qsum_const.
        pose proof (len_nonzero (below k) (below_nonempty k Hk)) as N. field. exact N.
    - intros o Ho. destruct (draws_occurs _ _ _ D Ho) as (a & u & ->). reflexivity.
  Qed.
  Lemma mmap_sum : forall {A B} (f : A -> M B) s l ws es, (forall a, In a l -> draws_only (f a) s) -> length ws = length l -> length es = length l ->
    (forall i a w e, nth_error l i = Some a -> nth_error ws i = Some w -> nth_error es i = Some e -> averages s (on_value w) (f a) e) ->
    averages s (on_value (wsum ws)) (mmap f l) (qsum_of es).
  Proof.
    intros A B f s l. induction l as [|a l IH]; intros [|w ws] [|e es] D L1 L2 H; try discriminate; cbn [mmap].
    - eapply averages_eq; [|apply averages_ret]. reflexivity.
    - cbn [qsum_of]. assert (H0 := H O a w e eq_refl eq_refl eq_refl).
      assert (IH' : averages s (on_value (wsum ws)) (mmap f l) (qsum_of es)).
      { apply IH; auto; [intros; apply D; right; auto|]. intros i. apply (H (S i)). }
      assert (Dl : draws_only (mmap f l) s) by (apply draws_mmap; intros; apply D; right; auto).
      apply averages_then with (r := fun b => (qsum_of es + w b)%Q); [apply D; left; auto| |].
      + intros b u _. apply averages_eq with (w b + qsum_of es)%Q; [ring|].
        apply (averages_bind s (on_value (wsum (w :: ws))) (mmap f l) (fun bs => ret (b :: bs)) (fun bs _ => (w b + wsum ws bs)%Q)).
        * eapply averages_ext; [apply averages_value_const; [exact Dl|exact IH']|]. intros o _. destruct o; reflexivity.
        * intros bs s' _. apply (averages_ret s' (on_value (wsum (w :: ws))) (b :: bs)).
      + apply averages_eq with (qsum_of es + e)%Q; [ring|]. apply averages_value_const; [apply D; left; auto|exact H0].
  Qed.
End Independent.

Section C76.
  Context {NO : NumOps}.
  (** The probability of the gate: the share of the values 0 .. 999 that pass. *)
  Definition gate (level : num) : Q :=
    inject_Z (Z.of_nat (length (filter (fun k => nleb (nofZ k) (nmul level (nofZ 1000))) (zrange 0 1000)))) / inject_Z 1000.
  Lemma gate_even : forall level, even (determines_mutation level) (map (fun k => nleb (nofZ k) (nmul level (nofZ 1000))) (zrange 0 1000)).
  Proof. intros level. unfold determines_mutation. apply even_map. apply (even_randint 0 999). lia. Qed.
  Theorem C76_gate : forall level s, chance (determines_mutation level) s (returns (fun b => b)) (gate level).
  Proof.
    intros level s. eapply averages_eq; [|apply (proj2 (gate_even level))]. rewrite map_map. cbn [returns]. rewrite (mean_indicator (fun k => nleb (nofZ k) (nmul level (nofZ 1000)))).
    rewrite zrange_length. reflexivity.
  Qed.
  Lemma gate_mean : forall level s (x y : Q), averages s (on_value (fun b : bool => if b then x else y)) (determines_mutation level) (gate level * x + (1 - gate level) * y)%Q.
  Proof.
    intros level s x y. apply averages_ext with (f := fun o => ((x - y) * indicator (returns (fun b => b) o) + on_value (fun _ => y) o)%Q).
    - apply averages_eq with ((x - y) * gate level + y)%Q; [ring|]. apply averages_plus; [| |apply averages_scale, C76_gate|].
      + intros t o. destruct o; reflexivity.
      + apply on_value_blind.
      + eapply averages_eq; [|apply (proj2 (gate_even level))]. cbn [on_value]. apply mean_const. exact (even_nonempty _ _ (gate_even level)).
    - intros o Ho. destruct (draws_occurs _ _ _ (draws_even _ _ s (gate_even level)) Ho) as (b & u & ->). cbn [returns on_value]. destruct b; cbn [indicator]; ring.
  Qed.
  (** *** Bit strings *)
  (** The genotype is the given string; the number of bits that differ from it. *)
  Fixpoint bits_eqb (cs : list bool) (g : list gv) : bool :=
    match cs, g with [], [] => true | c :: cs', GBit b :: g' => Bool.eqb c b && bits_eqb cs' g' | _, _ => false end.
  Fixpoint differing (bs : list bool) (g : list gv) : Q :=
    match bs, g with b :: bs', GBit c :: g' => (indicator (xorb b c) + differing bs' g')%Q | _, _ => 0%Q end.
  Lemma bin_gene_mean : forall level b (w : gv -> Q) s, averages s (on_value w) (bin_gene level (GBit b)) (gate level * w (GBit (negb b)) + (1 - gate level) * w (GBit b))%Q.
  Proof.
    intros level b w s. unfold bin_gene. apply averages_then with (r := fun f : bool => if f then w (GBit (negb b)) else w (GBit b)); [exact (draws_even _ _ s (gate_even level))| |apply gate_mean].
    intros f u _. eapply averages_eq; [|apply averages_ret]. cbn [on_value]. destruct f, b; reflexivity.
  Qed.
  Lemma bin_gene_draws : forall level x s, draws_only (bin_gene level x) s.
  Proof. intros. unfold bin_gene. apply draws_bind; [exact (draws_even _ _ s (gate_even level))|]. intros; apply draws_ret. Qed.
  (** Every string c has probability p^d (1 - p)^(n - d), where d is the number of bits in
      which it differs. *)
  Theorem C76_bits : forall level bs cs s, length cs = length bs ->
    chance (bin_mutation level (map GBit bs)) s (returns (bits_eqb cs))
      (qprod (map (fun bc => if xorb (fst bc) (snd bc) then gate level else 1 - gate level)%Q (combine bs cs))).
  Proof.
    intros level bs cs s L. unfold bin_mutation.
    set (ws := map (fun c y => indicator (match y with GBit b => Bool.eqb c b | _ => false end)) cs).
    assert (W : forall g, (indicator (bits_eqb cs g) == wprod ws g)%Q).
    { unfold ws. clear. induction cs as [|c cs IH]; intros [|y g]; cbn [map wprod bits_eqb]; try reflexivity. rewrite <- IH.
      destruct y; cbn [indicator]; try ring. destruct (Bool.eqb c b), (bits_eqb cs g); cbn [andb indicator]; ring. }
    eapply averages_ext with (f := on_value (wprod ws)); [|intros o _; destruct o; cbn [on_value returns indicator]; [symmetry; apply W|reflexivity|reflexivity]].
    apply mmap_product; [intros; apply bin_gene_draws|unfold ws; rewrite !map_length; auto|rewrite !map_length, combine_length; lia|].
    intros i a w e Ha Hw He. unfold ws in Hw. rewrite nth_error_map in Ha, Hw, He.
    destruct (nth_error bs i) as [b|] eqn:Eb; [|discriminate]. destruct (nth_error cs i) as [c|] eqn:Ec; [|discriminate]. inversion Ha; inversion Hw; subst. clear Ha Hw.
    assert (X : nth_error (combine bs cs) i = Some (b, c)).
    { clear - Eb Ec. revert bs cs Eb Ec. induction i as [|i IH]; intros [|b' bs] [|c' cs] Eb Ec; try discriminate; cbn in *; [congruence|auto]. }
    rewrite X in He. inversion He; subst. clear He. cbn [fst snd].
    eapply averages_eq; [|apply bin_gene_mean]. destruct b, c; cbn [xorb Bool.eqb negb indicator]; ring.
  Qed.
  (** The mean number of flipped bits. *)
  Theorem C76_flips : forall level bs s,
    averages s (on_value (differing bs)) (bin_mutation level (map GBit bs)) (inject_Z (Z.of_nat (length bs)) * gate level).
  Proof.
    intros level bs s. unfold bin_mutation.
    set (ws := map (fun b y => match y with GBit c => indicator (xorb b c) | _ => 0%Q end) bs).
    assert (D : forall a, In a (map GBit bs) -> draws_only (bin_gene level a) s) by (intros; apply bin_gene_draws).
    apply averages_eq with (qsum_of (map (fun _ : bool => gate level) bs)); [rewrite qsum_const; reflexivity|].
    eapply averages_ext with (f := on_value (wsum ws)).
    - apply mmap_sum; [exact D|unfold ws; rewrite !map_length; auto|rewrite !map_length; auto|].
      intros i a w e Ha Hw He. unfold ws in Hw. rewrite nth_error_map in Ha, Hw, He. destruct (nth_error bs i) as [b|]; [|discriminate]. inversion Ha; inversion Hw; inversion He; subst.
      eapply averages_eq; [|apply bin_gene_mean]. destruct b; cbn [xorb negb indicator]; ring.
    - intros o Ho. destruct (draws_occurs _ _ _ (draws_mmap _ s _ D) Ho) as (g & u & ->). cbn [on_value].
      destruct (Ho (tape s)) as (t & E). cbn [with_tape] in E. change (bin_mutation level (map GBit bs) (set_tape t s) = Ok g (set_tape (tape s) (set_tape u s))) in E.
      apply (possible_sound _ _ _ _ _ (bin_possible level (map GBit bs))) in E. destruct E as [E _]. unfold ws. clear - E. revert g E.
      induction bs as [|b bs IH]; intros g E; inversion E as [|x y l l' (k & _ & Hy) F]; subst; [reflexivity|]. cbn [map wsum].
      destruct (fires level k), b; cbn [flip differing indicator xorb]; rewrite (IH l' F); reflexivity.
  Qed.
  (** *** Categorical genes *)
  (** A pool with at least two entries, one of them different: with probability p one of
      the entries that differ, evenly. *)
  Theorem C76_category : forall level p x (w : gv -> Q) s, match p with CRange _ _ stp => stp <> 0 | CList _ => True | COther => False end ->
    let vs := pool_values p in let others := filter (fun y => negb (gv_eqb y x)) vs in (2 <= length vs)%nat -> others <> [] ->
    averages s (on_value w) (cat_gene level p x) (gate level * mean (map w others) + (1 - gate level) * w x)%Q.
  Proof.
    intros level p x w s Hp vs others L N. unfold cat_gene.
    apply averages_then with (r := fun b : bool => if b then mean (map w others) else w x); [exact (draws_even _ _ s (gate_even level))| |apply gate_mean].
    intros b u _. destruct b; [|apply (averages_ret s (on_value w) x)].
    assert (C : averages s (on_value w) (choice others) (mean (map w others))) by (eapply averages_eq; [|apply (proj2 (even_choice others N))]; reflexivity).
    destruct p as [lo hi stp|l|]; [| |contradiction].
    - destruct (stp =? 0) eqn:E; [apply Z.eqb_eq in E; contradiction|]. cbv zeta. cbn [pool_values] in vs. fold vs. unfold zlen.
      destruct (Z.ltb_spec 1 (Z.of_nat (length vs))); [exact C|lia].
    - cbn [pool_values] in vs. fold vs. unfold zlen. destruct (Z.ltb_spec 1 (Z.of_nat (length vs))); [exact C|unfold vs in *; lia].
  Qed.
  Definition gene_mean (level : num) (px : cgen * gv) (w : gv -> Q) : Q :=
    (gate level * mean (map w (filter (fun y => negb (gv_eqb y (snd px))) (pool_values (fst px)))) + (1 - gate level) * w (snd px))%Q.
  (** The genes of a categorical genotype are independent. *)
  Theorem C76_categorical : forall level ps g ws s, length ps = length g -> length ws = length g ->
    (forall i p x, nth_error ps i = Some p -> nth_error g i = Some x -> match p with CRange _ _ stp => stp <> 0 | CList _ => True | COther => False end /\
       (2 <= length (pool_values p))%nat /\ exists y, In y (pool_values p) /\ gv_eqb y x = false) ->
    averages s (on_value (wprod ws)) (cat_mutation level ps g) (qprod (map (fun pw => gene_mean level (fst pw) (snd pw)) (combine (combine ps g) ws))).
  Proof.
    intros level ps g ws s L1 L2 H.
    assert (E : forall s0, cat_mutation level ps g s0 = mmap (fun px => cat_gene level (fst px) (snd px)) (combine ps g) s0).
    { clear - L1. revert ps L1. induction g as [|x g IH]; intros [|p ps] L1 s0; try discriminate; [reflexivity|]. cbn [cat_mutation combine mmap fst snd].
      unfold bind at 1 3. destruct (cat_gene level p x s0) as [y s1|e|]; auto. unfold bind. rewrite IH by (cbn in L1; lia). reflexivity. }
    assert (Nth : forall {A B} (l1 : list A) (l2 : list B) i a b, nth_error (combine l1 l2) i = Some (a, b) -> nth_error l1 i = Some a /\ nth_error l2 i = Some b).
    { clear. intros A B l1. induction l1 as [|x l1 IH]; intros [|y l2] [|i] a b E; try discriminate; cbn in *; [inversion E; subst; auto|]. apply (IH l2); auto. }
    assert (Cm : forall px, In px (combine ps g) -> forall w s0, averages s0 (on_value w) (cat_gene level (fst px) (snd px)) (gene_mean level px w)).
    { intros [p x] Hpx w s0. apply In_nth_error in Hpx. destruct Hpx as (i & Hi). apply Nth in Hi. destruct Hi as [Hi1 Hi2]. destruct (H i p x Hi1 Hi2) as (Hp & Hl & y & Iy & Ny).
      apply C76_category; auto. cbn [fst snd]. intros C. assert (I : In y (filter (fun y => negb (gv_eqb y x)) (pool_values p))) by (apply filter_In; rewrite Ny; auto). rewrite C in I. destruct I. }
    eapply averages_same with (s := s); [|intros t; apply E].
    apply mmap_product; [|rewrite combine_length; lia|rewrite map_length, !combine_length; lia|].
    - intros [p x] Hpx t. apply In_nth_error in Hpx. destruct Hpx as (i & Hi). apply Nth in Hi. destruct Hi as [Hi1 Hi2]. destruct (H i p x Hi1 Hi2) as (Hp & Hl & y & Iy & Ny). cbn [fst snd].
      assert (Pk : pool_ok p x). { split; [exact Hp|right; eauto]. }
      destruct (proj1 (cat_gene_possible level p x Pk) (set_tape t s)) as (y' & t' & Ey & _). exists y', t'. rewrite Ey, set_tape_set. reflexivity.
    - intros i px w e Hpx Hw He. rewrite nth_error_map in He. destruct (nth_error (combine (combine ps g) ws) i) as [[px' w']|] eqn:Ec; [|discriminate].
      destruct (Nth _ _ _ _ _ _ _ Ec) as [E1 E2]. inversion He; subst. cbn [fst snd]. assert (px' = px) by congruence. assert (w' = w) by congruence. subst. apply Cm. eapply nth_error_In; eauto.
  Qed.
  (** *** Permutations *)
  (** One gate for the whole genotype: with probability 1 - p the child is left alone. *)
  Theorem C76_permutation : forall k level r s (P : list gv -> bool) q,
    draws_only (combi_mutation k (genotype (heap s r))) s -> chance (combi_mutation k (genotype (heap s r))) s (returns P) q ->
    averages s (fun o => match o with Ok _ s' => indicator (P (genotype (heap s' r))) | _ => 0%Q end) (combi_child k level r)
      (gate level * q + (1 - gate level) * indicator (P (genotype (heap s r))))%Q.
  Proof.
    intros k level r s P q D Hq. unfold combi_child. set (F := fun o : outcome unit => _).
    set (z := indicator (P (genotype (heap s r)))).
    apply (averages_bind s F (determines_mutation level) _ (fun b _ => if b then q else z)).
    - eapply averages_ext; [apply (gate_mean level s q z)|]. intros o Ho. destruct (draws_occurs _ _ _ (draws_even _ _ s (gate_even level)) Ho) as (b & u & ->). reflexivity.
    - intros b s' Ho. destruct (draws_occurs _ _ _ (draws_even _ _ s (gate_even level)) Ho) as (b' & u & E). inversion E; subst b' s'. clear E Ho.
      destruct b.
      + unfold mutate_child. eapply averages_same with (s := s) (m := bind (combi_mutation k (genotype (heap s r))) (fun g => modify r (set_genotype g))).
        * apply (averages_bind s F _ _ (fun g _ => indicator (P g))); [eapply averages_ext; [exact Hq|]; intros o _; destruct o; reflexivity|].
          intros g s'' Ho. destruct (draws_occurs _ _ _ D Ho) as (g' & v & E). inversion E; subst g' s''.
          eapply averages_eq; [|apply (averages_det (set_tape v s) F _ (modify r (set_genotype g) (set_tape v s)))].
          -- unfold F, modify. cbn. unfold upd. rewrite Nat.eqb_refl. reflexivity.
          -- intros t. reflexivity.
        * intros t. rewrite set_tape_set. reflexivity.
      + eapply averages_eq; [|apply (averages_ret (set_tape u s) F tt)]. reflexivity.
  Qed.
End C76.

(** *** Levels over the rationals *)
(** At a level between 0 and 1 the gate is the next thousandth above the level, at most 1. *)
Theorem C76_level : forall level : Q, (0 <= level <= 1)%Q ->
  (@gate Qops level == inject_Z (Z.min 1000 (Qfloor (1000 * level) + 1)) / 1000)%Q /\
  (level <= @gate Qops level <= level + (1 # 1000))%Q /\ ((level < 1)%Q -> (level < @gate Qops level)%Q).
Proof.
  intros level H. unfold gate. destruct (C21_probability level H) as [E _]. rewrite E. split; [reflexivity|].
  set (f := Qfloor (1000 * level)). assert (F1 := Qfloor_le (1000 * level)). assert (F2 := Qlt_floor (1000 * level)). fold f in F1, F2. rewrite inject_Z_plus in F2. change (inject_Z 1) with 1%Q in F2.
  change (inject_Z 1000) with 1000%Q.
  destruct (Z.min_spec 1000 (f + 1)) as [[Hm Em]|[Hm Em]]; rewrite Em.
  - assert (1000 <= inject_Z f)%Q by (change 1000%Q with (inject_Z 1000); rewrite <- Zle_Qle; lia).
    assert (level == 1)%Q by lra. change (inject_Z 1000 / 1000)%Q with (1000 / 1000)%Q. assert (1000 / 1000 == 1)%Q by reflexivity. repeat split; intros; lra.
  - rewrite inject_Z_plus. change (inject_Z 1) with 1%Q. assert (X : ((inject_Z f + 1) / 1000 == (inject_Z f + 1) * (1 # 1000))%Q) by (unfold Qdiv; reflexivity).
    rewrite X. repeat split; intros; lra.
Qed.
(** The level called normal flips, in the mean, more than one bit of a string and at most
    a thousandth per bit more. *)
Theorem C76_normal : forall (bs : list bool) s, (2 <= length bs)%nat ->
  exists q, averages s (@on_value Qops _ (differing bs)) (@bin_mutation Qops (1 / inject_Z (Z.of_nat (length bs)))%Q (map GBit bs)) q /\
    (1 < q <= 1 + inject_Z (Z.of_nat (length bs)) * (1 # 1000))%Q.
Proof.
  intros bs s L. set (n := inject_Z (Z.of_nat (length bs))). assert (N : (2 <= n)%Q) by (unfold n; change 2%Q with (inject_Z 2); rewrite <- Zle_Qle; lia).
  assert (I : (1 / n * n == 1)%Q) by (field; lra). assert (R : (0 <= 1 / n <= 1)%Q).
  { split; [apply Qle_shift_div_l; lra|apply Qle_shift_div_r; lra]. }
  assert (R' : (1 / n < 1)%Q) by (apply Qlt_shift_div_r; lra).
  destruct (C76_level (1 / n) R) as (_ & [G1 G2] & G3). specialize (G3 R').
  exists (n * @gate Qops (1 / n))%Q. split; [apply (@C76_flips Qops)|]. set (g := @gate Qops (1 / n)%Q) in *. set (v := (1 / n)%Q) in *. split; nra.
Qed.

Section Examples76.
  Local Existing Instance Qops.
  (** Level 1/4: the gate is 251/1000; both bits of 10 stay, the first flips alone, both
      flip. *)
  Example C76_gate_quarter : (gate (1 # 4 : @num Qops) == 251 # 1000)%Q.
  Proof. destruct (C76_level (1 # 4)) as [E _]; [split; discriminate|]. rewrite E. reflexivity. Qed.
  Example C76_bits_case : forall s, exists a b c,
    chance (bin_mutation (1 # 4 : @num Qops) (map GBit [true; false])) s (returns (bits_eqb [true; false])) a /\ (a == (749 # 1000) * (749 # 1000))%Q /\
    chance (bin_mutation (1 # 4 : @num Qops) (map GBit [true; false])) s (returns (bits_eqb [false; false])) b /\ (b == (251 # 1000) * (749 # 1000))%Q /\
    chance (bin_mutation (1 # 4 : @num Qops) (map GBit [true; false])) s (returns (bits_eqb [false; true])) c /\ (c == (251 # 1000) * (251 # 1000))%Q.
  Proof.
    intros s. eexists _, _, _. split; [apply C76_bits; reflexivity|]. split; [cbn [combine map xorb fst snd qprod]; rewrite C76_gate_quarter; reflexivity|].
    split; [apply C76_bits; reflexivity|]. split; [cbn [combine map xorb fst snd qprod]; rewrite C76_gate_quarter; reflexivity|].
    split; [apply C76_bits; reflexivity|]. cbn [combine map xorb fst snd qprod]; rewrite C76_gate_quarter; reflexivity.
  Qed.
  (** Four bits at level 1/4, the level called normal: 251/250 flips in the mean. *)
  Example C76_normal_case : forall s, exists q, averages s (on_value (differing [true; false; false; true])) (bin_mutation (1 # 4 : @num Qops) (map GBit [true; false; false; true])) q /\ (q == 251 # 250)%Q.
  Proof. intros s. eexists. split; [apply C76_flips|]. rewrite C76_gate_quarter. reflexivity. Qed.
  (** A pool 1, 2, 2, 3 and the value 1: the value 2 with probability 2/3 of the gate. *)
  Example C76_category_case : forall s, exists q,
    chance (cat_gene (1 # 4 : @num Qops) (CList [GInt 1; GInt 2; GInt 2; GInt 3]) (GInt 1)) s (returns (fun y => gv_eqb y (GInt 2))) q /\ (q == (251 # 1000) * (2 # 3))%Q.
  Proof.
    intros s. eexists. split.
    - eapply averages_ext; [apply (C76_category (1 # 4 : @num Qops) (CList [GInt 1; GInt 2; GInt 2; GInt 3]) (GInt 1) (fun y => indicator (gv_eqb y (GInt 2))) s); [exact I|cbn; lia|discriminate]|].
      intros o _. destruct o; reflexivity.
    - rewrite C76_gate_quarter. reflexivity.
  Qed.
  (** Swapping in 1 2 3 4 at level 1/4: the order 2 1 3 4 with a sixth of the gate. *)
  Example C76_permutation_case : exists q,
    averages (world_ent [ind (ints [1; 2; 3; 4]) SVNone] []) (fun o => match o with Ok _ s' => indicator (ints_are [2; 1; 3; 4] (genotype (heap s' 0%nat))) | _ => 0%Q end)
      (combi_child Swap_ (1 # 4 : @num Qops) 0) q /\ (q == (251 # 1000) * (1 # 6))%Q.
  Proof.
    set (s := world_ent [ind (ints [1; 2; 3; 4]) SVNone] []).
    assert (Ev : even (combi_mutation Swap_ (genotype (heap s 0%nat))) (map (exchanged (genotype (heap s 0%nat))) (pairs (seq 0 4)))) by (apply (C73_swap (genotype (heap s 0%nat))); cbn; lia).
    eexists. split.
    - apply C76_permutation; [exact (draws_even _ _ s Ev)|exact (C73_share _ _ s (ints_are [2; 1; 3; 4]) Ev)].
    - rewrite C76_gate_quarter. vm_compute. reflexivity.
  Qed.
End Examples76.

Print Assumptions C76_gate. Print Assumptions C76_level. Print Assumptions C76_bits. Print Assumptions C76_flips. Print Assumptions C76_normal.
Print Assumptions C76_category. Print Assumptions C76_categorical. Print Assumptions C76_permutation.
