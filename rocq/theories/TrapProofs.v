(** A population that its offspring cannot displace: if all that crossover and mutation make of
    its members is worse than all of them, the run never gets further. *)
From Coq Require Import String.
From Coq Require Import ZArith List Bool Lia Permutation Sorted.
From Verif Require Import Spec Num State Binary Population GaData Crossover Mutation Selection Penalty Fitness NewGeneration Driver
  ListLemmas Rnd Exec Laws PopulationProofs CrossoverProofs MutationProofs SelectionProofs VegaProofs
  NewGenProofs UpdateProofs FitnessProofs StepProofs RunProofs Runs PropCrossover PropRun DomainProofs ClosureProofs.
Import ListNotations.
Open Scope list_scope.
Open Scope Z_scope.

Section TrapProofs.
  Context {NO : NumOps}.

  Lemma filter_perm_nat : forall (f : nat -> bool) a b, Permutation a b -> Permutation (filter f a) (filter f b).
  Proof.
    intros f a b P. induction P; cbn; auto.
    - destruct (f x); auto.
    - destruct (f x), (f y); auto. apply perm_swap.
    - etransitivity; eauto.
  Qed.
  Lemma top_app : forall {A} n (a b : list A), (n <= length b)%nat -> top n (a ++ b) = top n b.
  Proof.
    intros A n a b H. unfold top. rewrite app_length, skipn_app. rewrite skipn_all2 by lia. cbn. f_equal. lia.
  Qed.

  Lemma gen_mem_in : forall x gs, gen_mem x gs = true -> exists y, In y gs /\ gvs_eqb x y = true.
  Proof.
    induction gs as [|y gs IH]; intros H; [discriminate H|]. cbn in H. apply orb_true_iff in H. destruct H as [H|H]; [exists y; split; [left; auto|auto]|].
    destruct (IH H) as (z & Iz & E). exists z. split; [right; auto|auto].
  Qed.
  Lemma nodup_skipn : forall {A} n (l : list A), NoDup l -> NoDup (skipn n l).
  Proof.
    intros A n. induction n as [|n IH]; intros l H; [exact H|]. destruct l as [|x l]; [exact H|]. inversion H; subst. cbn. apply IH; auto.
  Qed.
  Lemma filter_nothing : forall {A} (f : A -> bool) l, (forall x, In x l -> f x = false) -> filter f l = [].
  Proof. intros A f l H. induction l as [|x l IH]; cbn; auto. rewrite H by (left; auto). apply IH. intros. apply H. right; auto. Qed.
  Section Low.
    Context (theta : num).
    Definition low (s : st) (r : nat) : bool := match score (heap s r) with SV1 x => nltb x theta | _ => false end.
    Definition high (s : st) (r : nat) : bool := negb (low s r).
    Lemma low_first : forall ok s l, NumOrder NO ok -> ok theta -> (forall r, In r l -> exists x, score (heap s r) = SV1 x /\ ok x) -> asc KScore s l ->
      l = filter (low s) l ++ filter (high s) l.
    Proof.
      intros ok s l NL Ot. induction l as [|a l IH]; intros Sc As; [reflexivity|].
      inversion As as [|? ? As' Fa]; subst. specialize (IH (fun r H => Sc r (or_intror H)) As'). cbn [filter]. unfold high at 1.
      destruct (low s a) eqn:La; cbn [negb app]; [f_equal; exact IH|].
      assert (N : filter (low s) l = []).
      { destruct (filter (low s) l) as [|b l'] eqn:E; auto. exfalso. assert (Ib : In b (filter (low s) l)) by (rewrite E; left; auto). apply filter_In in Ib. destruct Ib as [Ib Lb].
        rewrite Forall_forall in Fa. specialize (Fa b Ib). destruct (Sc a (or_introl eq_refl)) as (x & Ex & Ox). destruct (Sc b (or_intror Ib)) as (y & Ey & Oy).
        unfold key_lt, key_of in Fa. unfold low in La, Lb. rewrite Ex in *. rewrite Ey in *. cbn in Fa. pose proof (no_negtrans _ _ NL y x theta Oy Ox Ot Fa La). congruence. }
      rewrite N in *. cbn [app] in *. f_equal. exact IH.
    Qed.
    (** Fewer than t low members: every winner of a tournament is high. *)
    Lemma winner_high : forall ok s l t b, NumOrder NO ok -> ok theta -> (forall r, In r l -> exists x, score (heap s r) = SV1 x /\ ok x) ->
      l = filter (low s) l ++ filter (high s) l -> Z.of_nat (length (filter (low s) l)) < t -> can_win s None t l b -> In b (filter (high s) l).
    Proof.
      intros ok s l t b NL Ot Sc El Ll (q & others & Hq & ND & Lo & Ho).
      assert (Ib : In b l) by (eapply nth_error_In; eauto). apply filter_In. split; auto. unfold high. destruct (low s b) eqn:Lb; auto. exfalso.
      assert (Ex : exists p, In p (q :: others) /\ (length (filter (low s) l) <= p)%nat).
      { destruct (existsb (fun p => Nat.leb (length (filter (low s) l)) p) (q :: others)) eqn:E; [apply existsb_exists in E; destruct E as (p & Hp & L); apply Nat.leb_le in L; eauto|].
        exfalso. assert (I : incl (q :: others) (seq 0 (length (filter (low s) l)))).
        { intros p Hp. apply in_seq. split; [lia|]. destruct (Nat.lt_ge_cases p (length (filter (low s) l))); [lia|]. exfalso.
          assert (C : existsb (fun p => Nat.leb (length (filter (low s) l)) p) (q :: others) = true) by (apply existsb_exists; exists p; split; auto; apply Nat.leb_le; auto). congruence. }
        pose proof (NoDup_incl_length ND I) as Le. rewrite seq_length in Le. cbn [length] in Le. lia. }
      destruct Ex as (p & Hp & Lp).
      assert (Hi : forall r, nth_error l p = Some r -> low s r = false).
      { intros r Hr. rewrite El, nth_error_app2 in Hr by lia. apply nth_error_In in Hr. apply filter_In in Hr. destruct Hr as [_ Hr]. unfold high in Hr. apply negb_true_iff in Hr. exact Hr. }
      destruct Hp as [<-|Hp]; [rewrite (Hi b Hq) in Lb; discriminate Lb|]. destruct (Ho p Hp) as (r & x & y & Hr & Kx & Ky & Nl). specialize (Hi r Hr).
      assert (Ir : In r l) by (eapply nth_error_In; eauto). destruct (Sc r Ir) as (x' & Ex & Ox). destruct (Sc b Ib) as (y' & Ey & Oy).
      unfold key_at in Kx, Ky. unfold low in Hi, Lb. rewrite Ex in *. rewrite Ey in *. inversion Kx; subst x'. inversion Ky; subst y'.
      pose proof (no_negtrans _ _ NL y x theta Oy Ox Ot Nl Hi). congruence.
    Qed.
  End Low.

  (** What crossover and mutation make of two genotypes (of length [n]). *)
  Definition near (ck : crossover_kind) (m : mutation) (g : gspec) (n : nat) (p1 p2 x : list gv) : Prop :=
    exists y m', made ck n p1 p2 y /\ same_sort m m' /\ mutated m' g y x.

  Section Run.
    Context (ok : num -> Prop) (NL : NumOrder NO ok) (fuel : nat) (c : comps) (gd0 : gadata) (s0 : st).
    Context (Single : single c) (Good : good_scores ok (c_fitness c)) (Start : started gd0 s0).
    Context (t m : Z) (Sel : c_selection c = SelTournament t) (Tr : ng_transfer (c_newgen c) = TBest).
    Context (Size : Z.of_nat (length (members (population gd0))) = num_individ (population gd0)) (Tn : t < num_individ (population gd0)).
    Context (Pairs : pairs_wanted None gd0 m) (Mt : 1 <= m < t).
    Context (home : list gv -> Prop) (theta : num) (Ot : ok theta).
    Context (Same : forall x y, home x -> home y -> gvs_eqb x y = true -> x = y).
    Let g := gspec_of (population gd0).
    Context (len : nat) (Len : forall x, home x -> length x = len).
    Context (Nlen : forall p1 p2 x, home p1 -> home p2 -> near (c_crossover c) (c_mutation c) g len p1 p2 x -> length x = len).
    Context (High : forall geno pt k v gen best i j, home geno -> spec_point g geno pt -> called (c_fitness c) k pt = inr v ->
      assess (c_fitness c) gen best v i = inr j -> exists x, score j = SV1 x /\ nltb x theta = false).
    Context (Low : forall g1 g2 geno pt k v gen best i j, home g1 -> home g2 -> near (c_crossover c) (c_mutation c) g len g1 g2 geno -> spec_point g geno pt ->
      called (c_fitness c) k pt = inr v -> assess (c_fitness c) gen best v i = inr j -> exists x, score j = SV1 x /\ nltb x theta = true).
    Context (In0 : all_in home gd0 s0) (Distinct : NoDup (genos s0 (members (population gd0)))).

    Lemma home_dup : forall gs, (forall x, In x gs -> home x) -> NoDup gs -> has_dup gs = false.
    Proof.
      intros gs H ND. induction ND as [|x gs Nx ND IH]; [reflexivity|]. cbn [has_dup]. rewrite IH by (intros; apply H; right; auto). rewrite orb_false_r.
      destruct (gen_mem x gs) eqn:E; auto. exfalso. apply gen_mem_in in E. destruct E as (y & Iy & E). apply Nx.
      assert (x = y); [|subst; auto]. apply Same; [apply H; left; auto|apply H; right; auto|exact E].
    Qed.
    (** The points the run can ever evaluate. *)
    Definition around (pt : list gv) : Prop :=
      exists geno, spec_point g geno pt /\ (home geno \/ exists g1 g2, home g1 /\ home g2 /\ near (c_crossover c) (c_mutation c) g len g1 g2 geno).
    Definition trap (c' : comps) (gd : gadata) (s : st) : Prop :=
      let l := members (population gd) in
      gspec_of (population gd) = g /\ num_individ (population gd) = num_individ (population gd0) /\ children_percent gd = children_percent gd0 /\
      same_sort (c_mutation c) (c_mutation c') /\
      Z.of_nat (length (filter (low theta s) l)) < t /\ num_individ (population gd0) - m + 1 <= Z.of_nat (length (filter (high theta s) l)) /\ t <= Z.of_nat (length l) /\
      (forall r, In r (filter (high theta s) l) -> home (genotype (heap s r))) /\ NoDup (genos s (filter (high theta s) l)) /\
      (forall r, In r l -> length (genotype (heap s r)) = len) /\
      exists calls, log s = calls ++ log s0 /\ Forall (fun x => around (fst x)) calls /\
        forall r, In r (members (population gd0)) -> exists v, In (point g (heap s0 r), v) calls.
    Lemma trap_kept : forall k c' gd' s', at_generation fuel c gd0 s0 k c' gd' s' -> trap c' gd' s'.
    Proof.
      intros k c' gd' s' A. refine (proj2 (proj2 (gen_inv ok NL fuel c gd0 s0 Single Good Start trap _ _ k c' gd' s' A))).
      - intros gd s cs l0 bst md w F G. pose proof (fi_pop _ _ _ _ _ _ _ _ _ _ F) as Ep. destruct (fi_members _ _ _ _ _ _ _ _ _ _ F) as [_ Pm].
        destruct (fi_params _ _ _ _ _ _ _ _ _ _ F) as (_ & _ & Ecp). pose proof (fi_eval _ _ _ _ _ _ _ _ _ _ F) as Ev.
        assert (Hh : forall r, In r (members (population gd)) -> genotype (heap s r) = genotype (heap s0 r) /\ low theta s r = false).
        { intros r Hr. apply (Permutation_in _ Pm) in Hr. destruct (assessed_in _ _ _ _ _ _ _ _ _ _ Ev Hr) as (v & k' & _ & Cv & Av).
          pose proof (assess_keeps _ _ _ _ _ _ Av) as (Eg & _). split; [exact Eg|].
          destruct (High (genotype (heap s0 r)) (point g (heap s0 r)) k' v 0 BNone (heap s0 r) (heap s r)) as (x & Ex & Hx); [apply In0; auto|apply decoded_point, (in_fresh _ _ (started_init _ _ Start)); auto|exact Cv|exact Av|].
          unfold low. rewrite Ex. exact Hx. }
        assert (Fl : filter (low theta s) (members (population gd)) = []).
        { destruct (filter (low theta s) (members (population gd))) as [|r l'] eqn:E; auto. exfalso. assert (I : In r (filter (low theta s) (members (population gd)))) by (rewrite E; left; auto).
          apply filter_In in I. destruct I as [I1 I2]. destruct (Hh r I1). congruence. }
        assert (Fh : filter (high theta s) (members (population gd)) = members (population gd)).
        { apply filter_all. intros r Hr. unfold high. rewrite (proj2 (Hh r Hr)). reflexivity. }
        unfold trap. rewrite Fl, Fh. assert (Ll : length (members (population gd)) = length (members (population gd0))) by (apply Permutation_length; auto).
        rewrite Ll. cbn [length]. split; [rewrite Ep; reflexivity|]. split; [rewrite Ep; reflexivity|]. split; [exact Ecp|]. split; [destruct (c_mutation c); cbn; auto|].
        split; [lia|]. split; [lia|]. split; [lia|]. split; [intros r Hr; rewrite (proj1 (Hh r Hr)); apply In0; apply (Permutation_in _ Pm); auto|]. split.
        + eapply Permutation_NoDup; [|exact Distinct]. unfold genos. rewrite (map_ext_in _ (fun r => genotype (heap s0 r)) (members (population gd))) by (intros r Hr; apply (proj1 (Hh r Hr))).
          apply Permutation_map. symmetry. exact Pm.
        + split; [intros r Hr; rewrite (proj1 (Hh r Hr)); apply Len, In0, (Permutation_in _ Pm); auto|]. exists (rev cs). split; [apply (fi_log _ _ _ _ _ _ _ _ _ _ F)|].
          split; [|intros r Hr; destruct (assessed_in _ _ _ _ _ _ _ _ _ _ Ev Hr) as (v & k' & Iv & _); exists v; apply in_rev; rewrite rev_involutive; exact Iv]. apply Forall_rev, Forall_forall. intros x Hx.
          destruct (assessed_call _ _ _ _ _ _ _ _ _ _ Ev Hx) as (r & Hr & Ex & _). exists (genotype (heap s0 r)). rewrite Ex. split; [apply decoded_point, (in_fresh _ _ (started_init _ _ Start)); auto|]. left. apply In0; auto.
      - intros c1 gd1 s1 c2 gd2 s2 kids els h cs l0 bst md w Sc G1 (T1 & T2 & T3 & T4 & T5 & T6 & T7 & T8 & T9 & Tl & calls & T10 & T11 & T12) St G2.
        set (l := members (population gd1)) in *. destruct Sc as (Sc1 & Sc2 & Sc3 & Sc4).
        assert (Sco : forall r, In r l -> exists x, score (heap s1 r) = SV1 x /\ ok x) by (intros r Hr; apply (gi_settled _ _ _ G1 r Hr)).
        pose proof (low_first theta ok s1 l NL Ot Sco (gi_asc _ _ _ G1)) as El.
        (* the number of children *)
        assert (Lk : Z.of_nat (length kids) = m).
        { pose proof (st_count _ _ _ _ _ _ _ _ _ _ _ _ _ _ St) as Hc. rewrite Sc2, Sel in Hc. cbn [num_pairs] in Hc. destruct Hc as (x & Hx & Hk). unfold pairs_wanted in Hx, Pairs. rewrite T2, T3 in Hx.
          rewrite Hx in Pairs. inversion Pairs; subst x. lia. }
        (* they are low *)
        assert (Kd : forall r, In r kids -> (exists g1 g2, home g1 /\ home g2 /\ near (c_crossover c) (c_mutation c) g len g1 g2 (genotype (h r))) /\ spec_point g (genotype (h r)) (point g (h r)) /\ low theta s2 r = true).
        { intros r Hr. destruct (st_winners _ _ _ _ _ _ _ _ _ _ _ _ _ _ St t ltac:(rewrite Sc2; exact Sel) T7 r Hr) as (first & rest & m1 & m2 & y & Em & W1 & W2 & Ma & Mu).
          fold l in W1, W2. apply (winner_high theta ok s1 l t _ NL Ot Sco El T5) in W1. apply (winner_high theta ok s1 l t _ NL Ot Sco El T5) in W2.
          assert (Nr : near (c_crossover c) (c_mutation c) g len (genotype (heap s1 m1)) (genotype (heap s1 m2)) (genotype (h r))).
          { exists y, (c_mutation c1). rewrite <- Sc3, <- T1. rewrite (Tl first) in Ma by (unfold l; rewrite Em; left; auto). auto. }
          assert (Sp : spec_point g (genotype (h r)) (point g (h r))).
          { rewrite <- T1. apply decoded_point. apply (st_fresh _ _ _ _ _ _ _ _ _ _ _ _ _ _ St r Hr). }
          split; [exists (genotype (heap s1 m1)), (genotype (heap s1 m2)); split; [apply T8; auto|split; [apply T8; auto|exact Nr]]|]. split; [exact Sp|].
          destruct (assessed_in _ _ _ _ _ _ _ _ _ _ (st_eval _ _ _ _ _ _ _ _ _ _ _ _ _ _ St) Hr) as (v & k' & _ & Cv & Av). rewrite Sc1, T1 in Cv. rewrite Sc1 in Av.
          destruct (Low _ _ _ _ _ _ _ _ _ _ (T8 _ W1) (T8 _ W2) Nr Sp Cv Av) as (x & Ex & Lx). unfold low. rewrite Ex. exact Lx. }
        (* the members carried over *)
        set (kk := Z.to_nat (num_individ (population gd0) - m)).
        assert (Els : els = top (kk + 1) (filter (high theta s1) l)).
        { destruct (st_taken _ _ _ _ _ _ _ _ _ _ _ _ _ _ St) as (s3 & Co & Tk). unfold taken in Tk. rewrite Sc4, Tr, T2, Lk in Tk.
          destruct (0 <? num_individ (population gd0) - m) eqn:E0; [|apply Z.ltb_ge in E0; lia]. fold l kk in Tk. cbv zeta in Tk. destruct Tk as [Tk _].
          assert (Et : top (kk + 1) l = top (kk + 1) (filter (high theta s1) l)) by (rewrite El at 1; apply top_app; unfold kk; lia).
          rewrite Et in Tk. apply Tk. assert (It : forall r, In r (top (kk + 1) (filter (high theta s1) l)) -> In r (filter (high theta s1) l)) by (intros r Hr; unfold top in Hr; apply in_skipn_ in Hr; auto).
          assert (Eg : genos s3 (top (kk + 1) (filter (high theta s1) l)) = genos s1 (top (kk + 1) (filter (high theta s1) l))).
          { unfold genos. apply map_ext_in. intros r Hr. apply It, filter_In in Hr. destruct (Co r (gi_alloc _ _ _ G1 r (proj1 Hr))) as (E & _). auto. }
          rewrite Eg. apply home_dup.
          - intros x Hx. unfold genos in Hx. apply in_map_iff in Hx. destruct Hx as (r & <- & Hr). apply T8; auto.
          - unfold genos, top. rewrite <- skipn_map. apply nodup_skipn. exact T9. }
        assert (Iel : forall r, In r els -> In r l /\ low theta s1 r = false).
        { intros r Hr. rewrite Els in Hr. unfold top in Hr. apply in_skipn_, filter_In in Hr. destruct Hr as [Hr Hh]. split; auto. unfold high in Hh. apply negb_true_iff in Hh. auto. }
        assert (Co : forall r, In r els -> same_core (heap s1 r) (heap s2 r)) by (intros r Hr; apply (st_core _ _ _ _ _ _ _ _ _ _ _ _ _ _ St), (gi_alloc _ _ _ G1), Iel; auto).
        assert (Lel : forall r, In r els -> low theta s2 r = false).
        { intros r Hr. destruct (Co r Hr) as (_ & _ & E & _). destruct (Iel r Hr) as [_ E2]. unfold low in *. rewrite <- E. exact E2. }
        assert (Lels : length els = (kk + 1)%nat) by (rewrite Els; unfold top; rewrite skipn_length; unfold kk in *; lia).
        destruct (st_members _ _ _ _ _ _ _ _ _ _ _ _ _ _ St) as [_ Pm].
        assert (Pl : Permutation (filter (low theta s2) (members (population gd2))) kids).
        { eapply Permutation_trans; [apply filter_perm_nat; exact Pm|]. rewrite filter_app.
          rewrite (filter_all _ kids) by (intros r Hr; apply (Kd r Hr)). rewrite (filter_nothing _ els) by exact Lel. rewrite app_nil_r. apply Permutation_refl. }
        assert (Ph : Permutation (filter (high theta s2) (members (population gd2))) els).
        { eapply Permutation_trans; [apply filter_perm_nat; exact Pm|]. rewrite filter_app.
          rewrite (filter_nothing _ kids) by (intros r Hr; unfold high; rewrite (proj2 (proj2 (Kd r Hr))); reflexivity).
          rewrite (filter_all _ els) by (intros r Hr; unfold high; rewrite (Lel r Hr); reflexivity). apply Permutation_refl. }
        destruct (step_params _ _ _ _ _ _ _ _ _ _ _ _ _ _ St) as [Pn Pg]. destruct (st_params _ _ _ _ _ _ _ _ _ _ _ _ _ _ St) as (_ & _ & Pc).
        destruct (st_comps _ _ _ _ _ _ _ _ _ _ _ _ _ _ St) as (m' & Ec & Em).
        unfold trap. rewrite (Permutation_length Pl), (Permutation_length Ph), (Permutation_length Pm), app_length, Lels.
        split; [congruence|]. split; [congruence|]. split; [congruence|]. split; [|split; [lia|split; [unfold kk; lia|split; [unfold kk; lia|split; [|split]]]]].
        + rewrite Ec. cbn [c_mutation set_mutation]. destruct (c_mutation c), (c_mutation c1); cbn in T4 |- *; try congruence. destruct Em as (x & ->). exact I.
        + intros r Hr. apply (Permutation_in _ Ph) in Hr. destruct (Co r Hr) as (E & _). rewrite <- E. apply T8. rewrite Els in Hr. unfold top in Hr. apply in_skipn_ in Hr. exact Hr.
        + eapply Permutation_NoDup; [unfold genos; apply Permutation_map, Permutation_sym; exact Ph|].
          rewrite (map_ext_in _ (fun r => genotype (heap s1 r)) els) by (intros r Hr; destruct (Co r Hr) as (E & _); auto). rewrite Els. unfold top. rewrite <- skipn_map. apply nodup_skipn. exact T9.
        + split.
          { intros r Hr. apply (Permutation_in _ Pm), in_app_or in Hr. destruct Hr as [Hr|Hr].
            - destruct (Kd r Hr) as ((g1 & g2 & A1 & A2 & A3) & _). destruct (assessed_in _ _ _ _ _ _ _ _ _ _ (st_eval _ _ _ _ _ _ _ _ _ _ _ _ _ _ St) Hr) as (v & k' & _ & _ & Av).
              pose proof (assess_keeps _ _ _ _ _ _ Av) as (Eg & _). rewrite Eg. exact (Nlen _ _ _ A1 A2 A3).
            - destruct (Co r Hr) as (E & _). rewrite <- E. apply Tl, Iel; auto. }
          exists (rev cs ++ calls). rewrite (st_log _ _ _ _ _ _ _ _ _ _ _ _ _ _ St), T10, <- app_assoc. split; auto.
          split; [|intros r Hr; destruct (T12 r Hr) as (v & Iv); exists v; apply in_or_app; auto]. apply Forall_app. split; auto. apply Forall_rev, Forall_forall. intros x Hx.
          destruct (assessed_call _ _ _ _ _ _ _ _ _ _ (st_eval _ _ _ _ _ _ _ _ _ _ _ _ _ _ St) Hx) as (r & Hr & Ex & _). destruct (Kd r Hr) as (Ha & Hb & _). exists (genotype (h r)). rewrite Ex, T1. auto.
    Qed.
  End Run.
End TrapProofs.
