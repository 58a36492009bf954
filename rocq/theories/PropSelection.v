(** Properties C23-C30: selection. *)
From Coq Require Import String.
From Coq Require Import ZArith QArith Qabs List Bool Lia Lqa Permutation.
From Verif Require Import Spec Num State Rnd Binary Population GaData Crossover Mutation Selection Penalty Fitness NewGeneration Driver
  ListLemmas Exec Laws CrossoverProofs PopulationProofs SelectionProofs TournamentProofs BalancedProofs RankProofs VegaProofs Demo.
Import ListNotations.
Open Scope list_scope.
Open Scope Z_scope.

(** The references of the population are allocated. *)
Definition allocated {NO : NumOps} (gd : gadata) (s : st) : Prop := forall r, In r (members (population gd)) -> (r < next s)%nat.
(** The contents of an individual except its numbering. *)
Definition same_contents {NO : NumOps} (i j : individ) : Prop := same_core i j /\ rank i = rank j.

(** *** C23 *)
(** int(children_percent * num_individ) pairs; each parent is a new individual with the
    contents of a member; the two of a pair come from different members; nothing else of
    ga_data changes. *)
Theorem C23_pairs : forall {NO : NumOps} f t gd s gd' s', allocated gd s ->
  selection_execute f (SelTournament t) gd s = Ok gd' s' ->
  2 <= t < num_individ (population gd) /\
  exists x prs, ntrunc (nmul (children_percent gd) (nofZ (num_individ (population gd)))) = Some x /\
    length prs = Z.to_nat x /\ gd' = set_parents (parents gd') gd /\
    length (parents gd') = (2 * Z.to_nat x)%nat /\ NoDup (parents gd') /\
    Forall (fun c => (next s <= c < next s')%nat) (parents gd') /\
    Forall2 (fun c p => same_contents (heap s p) (heap s' c)) (parents gd') (flat_map (fun p => [fst p; snd p]) prs) /\
    Forall (fun p => In (fst p) (members (population gd)) /\ In (snd p) (members (population gd)) /\ fst p <> snd p) prs.
Proof.
  intros NO f t gd s gd' s' Hlt H. apply tournament_execute_ok in H; auto. destruct H as (Ht & x & prs & Hx & Lp & -> & N & _ & F & _ & F2).
  split; auto. exists x, prs. split; [exact Hx|]. split; auto. split; [reflexivity|]. cbn [parents set_parents].
  split; [rewrite seq_length; lia|]. split; [apply seq_NoDup|]. split; [apply Forall_forall; intros c Hc; apply in_seq in Hc; lia|].
  split; [|exact F]. eapply Forall2_impl; [|exact F2]. intros c p [A B]. split; auto.
Qed.
Theorem C23_sizes : forall {NO : NumOps} f t gd s, t < 2 \/ num_individ (population gd) <= t ->
  selection_execute f (SelTournament t) gd s = Err (PyException "size of tournament").
Proof.
  intros NO f t gd s H. cbn [selection_execute]. unfold bind, check_tournament_size.
  destruct (Z.ltb_spec t 2); destruct (Z.leb_spec (num_individ (population gd)) t); cbn; auto; lia.
Qed.

Section Examples23.
  Local Existing Instance Qops.
  Definition four : list individ := [ind (ints [1]) (q (1#1)); ind (ints [2]) (q (2#1)); ind (ints [3]) (q (3#1)); ind (ints [4]) (q (4#1))].
  Definition gd4 (cp : Q) : gadata := new_gadata false 10 (cp : @num Qops) (Some 10) (cat_pop 4).
  (** Two pairs: positions (0, 3) and (0, 2); winners 3, 2, then 1, 3. *)
  Example C23_run : observe (fun gd s => map (fun c => genotype (heap s c)) (parents gd))
      (selection_execute 3 (SelTournament 2) (gd4 (1#2)) (world_ent four [[0; 2; 0; 1; 0; 0; 0; 2]])) =
    Some [ints [4]; ints [3]; ints [2]; ints [4]].
  Proof. run. Qed.
  Example C23_allocated : allocated (gd4 (1#2)) (world_ent four []).
  Proof. intros r Hr. cbn in *. lia. Qed.
  Example C23_bad : selection_execute 3 (SelTournament 4) (gd4 (1#2)) (world_ent four []) = Err (PyException "size of tournament").
  Proof. reflexivity. Qed.
End Examples23.

(** *** C24 *)
(** For any ordered arithmetic: a parent's score is not below that of t positions. *)
Theorem C24_selected : forall {NO : NumOps} (ok : num -> Prop), NumOrder NO ok -> forall f t gd s gd' s' ks,
  allocated gd s -> keys_of s None (members (population gd)) ks -> Forall ok ks -> t <= Z.of_nat (length ks) ->
  selection_execute f (SelTournament t) gd s = Ok gd' s' ->
  Forall (fun c => exists q x, nth_error ks q = Some x /\ score (heap s' c) = SV1 x /\
    (exists r, nth_error (members (population gd)) q = Some r /\ same_core (heap s r) (heap s' c)) /\
    t <= count_if (fun y => negb (nltb x y)) ks) (parents gd').
Proof.
  intros NO ok NL f t gd s gd' s' ks Hlt K Ok Ht H. apply tournament_execute_ok in H; auto.
  destruct H as (Ht2 & x & prs & _ & _ & -> & _ & _ & _ & W & F2). set (l := members (population gd)) in *.
  assert (Kok : keys_ok ok s None l).
  { intros r Hr. apply In_nth_error in Hr. destruct Hr as [p Hp]. destruct (keys_of_nth _ _ _ _ _ _ K Hp) as (k & Hk & Kk).
    exists k. split; auto. rewrite Forall_forall in Ok. apply Ok. eapply nth_error_In; eauto. }
  assert (Ll : length l = length ks) by (eapply Forall2_length; eauto).
  specialize (W ok NL Kok ltac:(lia)). cbn [parents set_parents].
  assert (Wall : Forall (fun p => can_win s None t l p) (flatten_pairs prs)).
  { clear - W. induction W as [|[a b] prs [H1 H2] W IH]; [constructor|]. rewrite flatten_cons. repeat constructor; auto. }
  clear W. revert Wall F2. generalize (seq (next s) (2 * length prs)) as cs. generalize (flatten_pairs prs) as ps. induction ps as [|p ps IH]; intros cs Wall F2.
  - inversion F2. constructor.
  - inversion F2 as [|c ? cs' ? Hc F2']; subst. inversion Wall as [|? ? Wp Wall']; subst. constructor; [|auto]. 
    apply (can_win_iff s None t l ks p K) in Wp; [|lia|intros k Hk; apply (no_irrefl _ _ NL); rewrite Forall_forall in Ok; auto].
    destruct Wp as (q & y & Hq & Hy & Cnt). exists q, y. split; auto. destruct Hc as [Hc _]. split; [|split; [exists p; auto|auto]].
    destruct (keys_of_nth _ _ _ _ _ _ K Hq) as (k & Hk & Kk). unfold key_at in Kk. destruct (score (heap s p)) eqn:E; try discriminate.
    inversion Kk; subst. destruct Hc as (_ & _ & Hs & _). congruence.
Qed.
(** Distinct scores (any order): the t - 1 worst are never selected - stated on an
    ascending population, where these are the first t - 1 positions. *)
Section C24Q.
  Local Existing Instance Qops.
  Lemma count_prefix : forall (xs : list Q) q x, (forall i j, (i < j < length xs)%nat -> (nth i xs 0 < nth j xs 0)%Q) ->
    nth_error xs q = Some x -> count_if (fun y => negb (Qltb x y)) xs = Z.of_nat (S q).
  Proof.
    intros xs q x Asc Hq. rewrite (count_positions _ xs 0%Q). f_equal.
    assert (Lq : (q < length xs)%nat) by (apply nth_error_Some; congruence).
    rewrite (filter_interval _ (length xs) 0 (S q)); [rewrite seq_length; lia|lia|].
    intros k Hk. rewrite negb_true_iff, Qltb_iff_f. rewrite (nth_error_nth' xs 0%Q Lq) in Hq. inversion Hq; subst x. split.
    - intros L. split; [lia|]. destruct (le_lt_dec (S q) k) as [C|C]; auto. exfalso. assert (nth q xs 0 < nth k xs 0)%Q by (apply Asc; lia). lra.
    - intros [_ L]. destruct (Nat.eq_dec k q) as [->|]; [lra|]. apply Qlt_le_weak, Asc. lia.
  Qed.
  Theorem C24_worst_never : forall f t gd s gd' s' (xs : list Q),
    allocated gd s -> keys_of s None (members (population gd)) (xs : list (@num Qops)) ->
    (forall i j, (i < j < length xs)%nat -> (nth i xs 0 < nth j xs 0)%Q) -> t <= Z.of_nat (length xs) ->
    selection_execute f (SelTournament t) gd s = Ok gd' s' ->
    Forall (fun c => exists q r, nth_error (members (population gd)) q = Some r /\ same_core (heap s r) (heap s' c) /\
      t - 1 <= Z.of_nat q) (parents gd').
  Proof.
    intros f t gd s gd' s' xs Hlt K Asc Ht H.
    pose proof (C24_selected _ Qorder f t gd s gd' s' xs Hlt K) as P. specialize (P ltac:(apply Forall_forall; auto) Ht H).
    eapply Forall_impl; [|exact P]. cbv beta. intros c (q & x & Hq & _ & (r & Hr & Sc) & Cnt). exists q, r. split; auto. split; auto.
    pose proof (count_prefix xs q x Asc Hq) as Cp. change (t <= count_if (fun y => negb (Qltb x y)) xs) in Cnt. lia.
  Qed.
End C24Q.
(** Conversely any member whose score is not below that of t positions can be selected:
    some draws make it the first parent, whatever comes after. *)
Theorem C24_can_be : forall {NO : NumOps} (ok : num -> Prop), NumOrder NO ok -> forall t gd s ks x q b y,
  allocated gd s -> keys_of s None (members (population gd)) ks -> Forall ok ks -> NoDup (members (population gd)) ->
  rnd_seed s = None -> 2 <= t < num_individ (population gd) -> t < Z.of_nat (length ks) ->
  ntrunc (nmul (children_percent gd) (nofZ (num_individ (population gd)))) = Some x -> 1 <= x ->
  nth_error (members (population gd)) q = Some b -> nth_error ks q = Some y -> t <= count_if (fun z => negb (nltb y z)) ks ->
  exists ds, forall f tp, exists gd' s' c rest,
    selection_execute (S f) (SelTournament t) gd (next_draws (papp ds tp) s) = Ok gd' s' /\
    parents gd' = c :: rest /\ same_core (heap s b) (heap s' c).
Proof.
  intros NO ok NL t gd s ks x q b y Hlt K Ok ND Hs Ht Hl Hx Hx1 Hq Hy Cnt. set (l := members (population gd)) in *.
  assert (Kok : keys_ok ok s None l).
  { intros r Hr. apply In_nth_error in Hr. destruct Hr as [p Hp]. destruct (keys_of_nth _ _ _ _ _ _ K Hp) as (k & Hk & Kk).
    exists k. split; auto. rewrite Forall_forall in Ok. apply Ok. eapply nth_error_In; eauto. }
  assert (Ll : length l = length ks) by (eapply Forall2_length; eauto).
  assert (W : can_win s None t l b).
  { apply (can_win_iff s None t l ks b K); [lia|intros k Hk; apply (no_irrefl _ _ NL); rewrite Forall_forall in Ok; auto|]. exists q, y. auto. }
  destruct (tournament_execute_live ok NL t gd s x b) as (ds & R); auto; fold l; auto; [lia|]. exists ds. intros f tp.
  destruct (R f tp) as (s' & E & Sc). exists (set_parents (seq (next s) (2 * Z.to_nat x)) gd), s', (next s), (seq (S (next s)) (2 * Z.to_nat x - 1)).
  split; auto. split; auto. cbn [parents set_parents]. replace (2 * Z.to_nat x)%nat with (S (2 * Z.to_nat x - 1)) at 1 by lia. reflexivity.
Qed.

Section Examples24.
  Local Existing Instance Qops.
  Example C24_meets : keys_of (world_ent four []) None (members (population (gd4 (1#2)))) ([1; 2; 3; 4]%Q : list (@num Qops)) /\
    count_if (fun y => negb (Qltb 2 y)) [1; 2; 3; 4]%Q = 2.
  Proof. split; [repeat constructor|reflexivity]. Qed.
  (** The second worst wins a tournament of two against the worst. *)
  Example C24_second_worst : observe (fun gd s => map (fun c => genotype (heap s c)) (parents gd))
      (selection_execute 3 (SelTournament 2) (gd4 (1#4)) (world_ent four [[0; 0; 0; 1]])) = Some [ints [2]; ints [3]].
  Proof. run. Qed.
End Examples24.

(** *** C25 *)
(** Every operator (with at least one objective): the population attribute of ga_data is
    the same list, everything but parents is as before, old individuals keep genotype,
    phenotype, score, objective score and feasibility, those outside the population are
    untouched, and the parents are new individuals, so changing them later cannot change
    a member. *)
Theorem C25_frame : forall {NO : NumOps} f sel gd s gd' s', allocated gd s ->
  match sel with SelVegaBalanced m | SelVegaRanked m => 1 <= m | _ => True end ->
  selection_execute f sel gd s = Ok gd' s' ->
  gd' = set_parents (parents gd') gd /\ log s' = log s /\
  (forall r, (r < next s)%nat -> same_core (heap s r) (heap s' r)) /\
  (forall r, (r < next s)%nat -> ~ In r (members (population gd)) -> heap s' r = heap s r) /\
  NoDup (parents gd') /\ Forall (fun c => (next s <= c < next s')%nat) (parents gd') /\
  (forall c g, In c (parents gd') -> forall u s'', modify c g s' = Ok u s'' -> forall r, (r < next s)%nat -> heap s'' r = heap s' r).
Proof.
  intros NO f sel gd s gd' s' Hlt Ho H. apply selection_touches in H; auto. destruct H as ((Fr & Un) & a & n & -> & La & N).
  destruct Fr as (F1 & F2 & F3 & F4 & F5). split; [reflexivity|]. split; auto. split; auto. split; auto. cbn [parents set_parents].
  split; [apply seq_NoDup|]. split; [apply Forall_forall; intros c Hc; apply in_seq in Hc; lia|].
  intros c g Hc u s'' E r Hr. apply modify_ok in E. subst. cbn [heap set_heap]. unfold upd. apply in_seq in Hc. destruct (Nat.eqb_spec r c); auto. lia.
Qed.
Section Examples25.
  Local Existing Instance Qops.
  (** Ranked selection annotates the members and leaves everything else. *)
  Example C25_ranked : observe (fun gd s => (parents gd, map (fun r => (genotype (heap s r), score (heap s r), rank (heap s r))) (members (population gd))))
      (selection_execute 3 SelRanked (gd4 (1#4)) (world_ent four [[0; 2 ^ 52]])) =
    Some ([4; 5]%nat, [(ints [1], q 1, Some (q 1)); (ints [2], q 2, Some (q 2)); (ints [3], q 3, Some (q 3)); (ints [4], q 4, Some (q 4))]).
  Proof. run. Qed.
End Examples25.

(** *** C26 *)
Theorem C26_can_finish : forall {NO : NumOps} (ok : num -> Prop), NumOrder NO ok -> forall t gd s ks x,
  allocated gd s -> keys_of s None (members (population gd)) ks -> Forall ok ks -> NoDup (members (population gd)) ->
  rnd_seed s = None -> 2 <= t < num_individ (population gd) -> t < Z.of_nat (length ks) ->
  ntrunc (nmul (children_percent gd) (nofZ (num_individ (population gd)))) = Some x ->
  exists ds, forall f tp, exists gd' s', selection_execute (S f) (SelTournament t) gd (next_draws (papp ds tp) s) = Ok gd' s'.
Proof.
  intros NO ok NL t gd s ks x Hlt K Ok ND Hs Ht Hl Hx. set (l := members (population gd)) in *.
  assert (Kok : keys_ok ok s None l).
  { intros r Hr. apply In_nth_error in Hr. destruct Hr as [p Hp]. destruct (keys_of_nth _ _ _ _ _ _ K Hp) as (k & Hk & Kk).
    exists k. split; auto. rewrite Forall_forall in Ok. apply Ok. eapply nth_error_In; eauto. }
  assert (Ll : length l = length ks) by (eapply Forall2_length; eauto).
  assert (I0 : exists b, In b l) by (destruct l; [cbn in Ll; lia|eexists; left; eauto]). destruct I0 as [b0 I0].
  destruct (two_winners ok NL s None t l Kok ND ltac:(lia) b0 I0) as (b & W & _).
  destruct (tournament_execute_live ok NL t gd s x b) as (ds & R); auto; fold l; auto; [lia|]. exists ds. intros f tp.
  destruct (R f tp) as (s' & E & _). eauto.
Qed.
(** At any moment of the search for a second parent some continuation stops it. *)
Theorem C26_can_always_finish_pair : forall {NO : NumOps} (ok : num -> Prop), NumOrder NO ok -> forall t l s first,
  keys_ok ok s None l -> NoDup l -> 1 <= t < Z.of_nat (length l) ->
  (forall p1 p2, In p1 l -> In p2 l -> p1 <> p2 -> idx_individ (heap s p1) <> idx_individ (heap s p2)) -> In first l ->
  exists b ds, forall f tp, second_parent (S f) None t l first (set_tape (papp ds tp) s) = Ok b (set_tape tp s).
Proof.
  intros NO ok NL t l s first K ND Ht Hd Hf. destruct (second_can_stop ok NL None t l s K ND Ht Hd first Hf) as (b & ds & E). exists b, ds. intros. apply E.
Qed.
(** Condition for hanging: one individual, strictly better than all others, fills all
    but fewer than t positions. *)
Theorem C26_hangs : forall {NO : NumOps} (ok : num -> Prop), NumOrder NO ok -> forall f t gd s b x n,
  let l := members (population gd) in
  keys_ok ok s None l -> key_at None (heap s b) = Some x ->
  (forall r y, In r l -> r <> b -> key_at None (heap s r) = Some y -> nltb y x = true) ->
  Z.of_nat (length (filter (fun r => negb (Nat.eqb r b)) l)) < t -> t <= Z.of_nat (length l) -> 2 <= t < num_individ (population gd) ->
  ntrunc (nmul (children_percent gd) (nofZ (num_individ (population gd)))) = Some n -> 1 <= n ->
  selection_execute f (SelTournament t) gd s = NoFuel.
Proof. intros NO ok NL f t gd s b x n l K Kb Hb Ho Hl Ht Hn H1. eapply (tournament_hangs ok NL); eauto. Qed.

Section C26Run.
  Local Existing Instance Qops.
  Definition gene_sum (g : list gv) : Q :=
    fold_right (fun x a => match x with GInt z => inject_Z z + a | GNum y => y + a | GBit true => 1 + a | _ => a end)%Q 0%Q g.
  Definition sum_objective : objfun := Obj1 (fun _ g => inr (OScalar (gene_sum g : @num Qops))).
  (** Three equal individuals supplied by the user, one child per generation. *)
  Definition hang_cfg : config := mkCfg 3 3 sum_objective TNone None PNone None (1#2 : @num Qops)%Q None
    [[GInt 0]; [GInt 0]; [GInt 0]] 2 (LFloat (1%Q : @num Qops)) "best" false.
  Definition hang_start : st := world_ent [] [[]; [0; 0; 1; 1]; [0; 0; 0; 0; 2]; [2; 0; 1; 0]; [0; 0; 0; 0; 1]].
  Lemma hang_facts : observe (fun r s => (map (fun m => (m, score (heap s m))) (members (population (fst r))),
      (num_individ (population (fst r)), children_percent (fst r))))
      (categorical_ga 1 hang_cfg [CList [GInt 0; GInt 5]] hang_start) =
    Some ([(8%nat, q (-5)); (2%nat, q 0); (2%nat, q 0); (2%nat, q 0)], (3, (1#2)%Q)).
  Proof. run. Qed.
  Lemma hang_lemma : forall o : outcome (gadata * option (list string)),
    observe (fun r s => (map (fun m => (m, score (heap s m))) (members (population (fst r))),
      (num_individ (population (fst r)), children_percent (fst r)))) o =
    Some ([(8%nat, q (-5)); (2%nat, q 0); (2%nat, q 0); (2%nat, q 0)], (3, (1#2)%Q)) ->
    exists gd cl s, o = Ok (gd, cl) s /\
    forall f tp e, selection_execute f (SelTournament 2) gd (set_ent e (set_tape tp s)) = NoFuel.
  Proof.
    intros o H. destruct o as [[gd cl] s|e|]; try discriminate. exists gd, cl, s. split; auto.
    cbn [observe fst] in H. assert (H1 : map (fun m => (m, score (heap s m))) (members (population gd)) = [(8%nat, q (-5)); (2%nat, q 0); (2%nat, q 0); (2%nat, q 0)] /\
      num_individ (population gd) = 3 /\ children_percent gd = (1#2)%Q).
    { inversion H. auto. } clear H. destruct H1 as (Hm & Hn & Hc).
    assert (Hl : members (population gd) = [8; 2; 2; 2]%nat).
    { apply (f_equal (map fst)) in Hm. rewrite map_map in Hm. cbn in Hm. rewrite map_id in Hm. exact Hm. }
    rewrite Hl in Hm. cbn [map] in Hm. injection Hm as H8 H2 _ _. intros f tp e'.
    apply (C26_hangs _ Qorder f 2 gd (set_ent e' (set_tape tp s)) 2%nat 0%Q 1); rewrite ?Hl, ?Hn; cbn [heap set_ent set_tape].
    - intros r Hr. unfold key_at. cbn [heap set_ent set_tape]. destruct Hr as [<-|[<-|[<-|[<-|[]]]]]; rewrite ?H8, ?H2; eexists; split; reflexivity || exact Logic.I.
    - unfold key_at. rewrite H2. reflexivity.
    - intros r y Hr Hne Ky. unfold key_at in Ky. destruct Hr as [<-|[<-|[<-|[<-|[]]]]]; try congruence. rewrite H8 in Ky. inversion Ky; subst. reflexivity.
    - cbn. lia.
    - cbn. lia.
    - lia.
    - rewrite Hc. reflexivity.
    - lia.
  Qed.
  (** The run reaches its third generation, and from there no draws whatsoever complete
      the next selection. *)
  Theorem C26_hang_reachable : exists cf gens s0 gd cl s, categorical_ga 1 cf gens s0 = Ok (gd, cl) s /\
    forall f tp e, selection_execute f (SelTournament (cf_tournament_size cf)) gd (set_ent e (set_tape tp s)) = NoFuel.
  Proof. exists hang_cfg, [CList [GInt 0; GInt 5]], hang_start. exact (hang_lemma _ hang_facts). Qed.
End C26Run.

Print Assumptions C23_pairs.
Print Assumptions C23_sizes.
Print Assumptions C24_selected.
Print Assumptions C24_worst_never.
Print Assumptions C24_can_be.
Print Assumptions C25_frame.
Print Assumptions C26_can_finish.
Print Assumptions C26_can_always_finish_pair.
Print Assumptions C26_hangs.
Print Assumptions C26_hang_reachable.
