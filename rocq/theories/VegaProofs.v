(** Whole calls of the selection operators: reachability of every admissible outcome,
    frames, VEGA variants. *)
From Coq Require Import ZArith QArith Qabs List Bool Lia Lqa Permutation.
From Verif Require Import Spec Num State Binary Population GaData Selection ListLemmas Rnd Exec Laws CrossoverProofs PopulationProofs
  SelectionProofs TournamentProofs BalancedProofs RankProofs.
Import ListNotations.
Open Scope list_scope.
Open Scope Z_scope.

Lemma nodup_app_l : forall {A} (a b : list A), NoDup (a ++ b) -> NoDup a.
Proof.
  induction a as [|x a IH]; intros b H; [constructor|]. inversion H; subst. constructor; eauto. intros C. apply H2, in_or_app. auto.
Qed.

Section Vega.
  Context {NO : NumOps}.

  (** The same state, except that the next seeding of the generator from the entropy
      source produces the draws [tp]. *)
  Definition next_draws (tp : nat -> Z) (s : st) : st :=
    set_ent (fun k => match k with O => tp | S i => ent s i end) s.

  (** Keys of the members in order. *)
  Definition keys_of (s : st) (idx : option Z) (l : list nat) (ks : list num) : Prop :=
    Forall2 (fun r k => key_at idx (heap s r) = Some k) l ks.
  Lemma keys_of_nth : forall s idx l ks p r, keys_of s idx l ks -> nth_error l p = Some r ->
    exists k, nth_error ks p = Some k /\ key_at idx (heap s r) = Some k.
  Proof.
    intros s idx l ks p r F. revert p. induction F as [|r0 k l ks H F IH]; intros p E; [destruct p; discriminate|].
    destruct p; cbn in *; [inversion E; subst; eauto|auto].
  Qed.
  Lemma can_win_iff : forall s idx t l ks b, keys_of s idx l ks -> 1 <= t ->
    (forall k, In k ks -> nltb k k = false) ->
    (can_win s idx t l b <-> exists q x, nth_error l q = Some b /\ nth_error ks q = Some x /\
       t <= count_if (fun y => negb (nltb x y)) ks).
  Proof.
    intros s idx t l ks b F Ht Irr. assert (Ln : length l = length ks) by (eapply Forall2_length; eauto).
    assert (Cnt : forall x (d : num), count_if (fun y => negb (nltb x y)) ks =
              Z.of_nat (length (filter (fun k => negb (nltb x (nth k ks d))) (seq 0 (length ks))))) by (intros; apply (count_positions (fun y => negb (nltb x y)) ks d)).
    split.
    - intros (q & others & Hq & ND & L & Hm). destruct (keys_of_nth _ _ _ _ _ _ F Hq) as (x & Hx & Kx).
      exists q, x. split; auto. split; auto. rewrite (Cnt x x), <- L. apply inj_le. change (S (length others)) with (length (q :: others)). apply NoDup_incl_length; auto.
      intros p Hp. apply filter_In. assert (Hn : forall y, nth_error ks p = Some y -> nth p ks x = y) by (intros; apply nth_error_nth; auto).
      destruct Hp as [<-|Hp].
      + split; [apply in_seq; split; [lia|]; apply nth_error_Some; congruence|]. rewrite (Hn x); auto. rewrite Irr; auto. eapply nth_error_In; eauto.
      + destruct (Hm p Hp) as (r & x1 & y1 & Hr & K1 & K2 & Hlt). destruct (keys_of_nth _ _ _ _ _ _ F Hr) as (k & Hk & Kk).
        split; [apply in_seq; split; [lia|]; apply nth_error_Some; congruence|]. rewrite (Hn k) by auto.
        replace x with y1 by congruence. replace k with x1 by congruence. rewrite Hlt. reflexivity.
    - intros (q & x & Hq & Hx & Hc). rewrite (Cnt x x) in Hc.
      set (ps := filter (fun k => negb (nltb x (nth k ks x))) (seq 0 (length ks))) in *.
      assert (NDp : NoDup ps) by (apply NoDup_filter, seq_NoDup).
      assert (Iq : In q ps).
      { apply filter_In. split; [apply in_seq; split; [lia|]; apply nth_error_Some; congruence|].
        rewrite (nth_error_nth _ _ _ Hx), Irr; auto. eapply nth_error_In; eauto. }
      apply in_split in Iq. destruct Iq as (u & v & E).
      exists q, (firstn (Z.to_nat t - 1) (u ++ v)). split; auto.
      assert (ND2 : NoDup (q :: u ++ v)).
      { rewrite E in NDp. constructor; [apply NoDup_remove_2; auto|]. apply NoDup_remove_1 in NDp. auto. }
      assert (Lp : length ps = S (length (u ++ v))) by (rewrite E, !app_length; cbn; lia).
      split; [|split].
      + inversion ND2 as [|? ? Nq NDuv]; subst. rewrite <- (firstn_skipn (Z.to_nat t - 1) (u ++ v)) in Nq, NDuv.
        constructor; [intros C; apply Nq, in_or_app; auto|]. apply nodup_app_l in NDuv. auto.
      + rewrite firstn_length. lia.
      + intros p Hp. assert (Ip : In p ps).
        { rewrite E. apply in_or_app. assert (Iuv : In p (u ++ v)) by (rewrite <- (firstn_skipn (Z.to_nat t - 1) (u ++ v)); apply in_or_app; auto).
          apply in_app_or in Iuv. destruct Iuv; [left|right; right]; auto. }
        apply filter_In in Ip. destruct Ip as [Ip1 Ip2]. apply in_seq in Ip1.
        destruct (nth_error l p) as [r|] eqn:Er; [|apply nth_error_None in Er; lia]. destruct (keys_of_nth _ _ _ _ _ _ F Er) as (k & Hk & Kk).
        destruct (keys_of_nth _ _ _ _ _ _ F Hq) as (x' & Hx' & Kx). exists r, k, x. split; auto. split; auto. split; [congruence|].
        rewrite (nth_error_nth _ _ _ Hk) in Ip2. apply negb_true_iff in Ip2. auto.
  Qed.

  Lemma reset_next_draws : forall tp l i s u s', reset_idx_loop i l s = Ok u s' -> reset_idx_loop i l (next_draws tp s) = Ok u (next_draws tp s').
  Proof.
    intros tp. induction l as [|r l IH]; intros i s u s' H; cbn [reset_idx_loop] in *.
    - apply ret_ok in H. destruct H as [-> ->]. reflexivity.
    - bd H v s1 R. apply modify_ok in R. unfold bind, modify. subst. destruct s; exact (IH _ _ _ _ H).
  Qed.
  Lemma reset_total : forall l i s, exists s', reset_idx_loop i l s = Ok tt s'.
  Proof. induction l as [|r l IH]; intros i s; cbn [reset_idx_loop]; [eauto|]. unfold bind, modify. apply IH. Qed.
  (** base_execute with chosen draws, when the generator is not seeded with a number. *)
  Lemma base_execute_draws : forall gd s, rnd_seed s = None -> exists s1,
    (forall tp, base_execute gd (next_draws tp s) = Ok (set_parents [] gd) (set_tape tp s1)) /\
    renumbered (members (population gd)) s s1 /\ next s1 = next s.
  Proof.
    intros gd s H. unfold base_execute, reset_idx_individ. set (l := members (population gd)).
    destruct (reset_total l 0 s) as [s0 H0]. assert (Hr := H0). apply reset_idx_ok in Hr. destruct Hr as (N & L & S1 & S2 & T & E & Hh).
    exists s0. split; [|split; [exact Hh|auto]]. intros tp. unfold bind. rewrite (reset_next_draws tp _ _ _ _ _ H0).
    unfold get_empty_copy, bind, do_seed. cbn [rnd_seed next_draws set_ent]. rewrite S1, H. destruct s0; reflexivity.
  Qed.
  (** Every list of admissible pairs can be selected. *)
  Lemma tournament_execute_reach : forall (ok : num -> Prop), NumOrder NO ok -> forall t gd s x prs,
    let l := members (population gd) in
    rnd_seed s = None -> keys_ok ok s None l -> (forall r, In r l -> (r < next s)%nat) ->
    2 <= t < num_individ (population gd) -> t <= Z.of_nat (length l) -> pairs_wanted None gd x -> length prs = Z.to_nat x ->
    Forall (fun p => can_win s None t l (fst p) /\ can_win s None t l (snd p) /\ In (fst p) l /\ In (snd p) l /\ fst p <> snd p) prs ->
    exists ds, forall f tp, exists s', selection_execute (S f) (SelTournament t) gd (next_draws (papp ds tp) s) =
        Ok (set_parents (seq (next s) (2 * length prs)) gd) s' /\
      Forall2 (fun c p => same_core (heap s p) (heap s' c)) (seq (next s) (2 * length prs)) (flatten_pairs prs).
  Proof.
    intros ok NL t gd s x prs l Hs K Hlt Ht Hl Hx Lp F. destruct (base_execute_draws gd s Hs) as (s1 & B & Rn & N). fold l in Rn.
    assert (K1 : keys_ok ok s1 None l) by (apply (keys_ok_key ok s s1); auto; intros r Hr; eapply renumbered_key; eauto).
    assert (W : forall b, can_win s None t l b -> can_win s1 None t l b) by (intros b Hb; apply (can_win_key s s1); auto; intros r Hr; eapply renumbered_key; eauto).
    assert (F1 : Forall (fun p => can_win s1 None t l (fst p) /\ can_win s1 None t l (snd p) /\ idx_individ (heap s1 (fst p)) <> idx_individ (heap s1 (snd p))) prs).
    { eapply Forall_impl; [|exact F]. intros [p1 p2]. cbn. intros (W1 & W2 & I1 & I2 & D). split; auto. split; auto. eapply renumbered_distinct; eauto. }
    destruct (tournament_reach ok NL O None t l prs s1 s1) as (ds & s2 & ps & R & X & Ef & Nn & F2); auto; [lia|rewrite N; auto|apply extends_refl|].
    exists ds. intros f tp. exists (set_tape tp s2). split.
    - apply (selection_fuel (SelTournament t) gd 1%nat (S f)); [lia|]. cbn [selection_execute]. unfold bind at 1. unfold check_tournament_size.
      destruct (t <? 2) eqn:E1; [apply Z.ltb_lt in E1; lia|].
      destruct (num_individ (population gd) <=? t) eqn:E2; [apply Z.leb_le in E2; lia|]. cbn [orb ret].
      unfold bind. rewrite B. unfold tournament, bind, get_total_num_parents, bind, ret, lift_opt.
      cbn [children_percent population set_parents num_individ]. cbn [pairs_wanted] in Hx. rewrite Hx. fold l. rewrite <- Lp.
      rewrite R. cbn [parents set_parents app]. rewrite Ef, N. reflexivity.
    - rewrite Ef, N in F2. eapply Forall2_impl; [|exact F2]. intros c p E. cbn [heap set_tape]. rewrite E. apply (renumbered_core l s s1 p Rn).
  Qed.
  (** Distinct individuals: the selection can finish, with any admissible first parent. *)
  Lemma tournament_execute_live : forall (ok : num -> Prop), NumOrder NO ok -> forall t gd s x b,
    let l := members (population gd) in
    rnd_seed s = None -> keys_ok ok s None l -> (forall r, In r l -> (r < next s)%nat) -> NoDup l ->
    2 <= t < num_individ (population gd) -> t < Z.of_nat (length l) -> pairs_wanted None gd x -> can_win s None t l b ->
    exists ds, forall f tp, exists s', selection_execute (S f) (SelTournament t) gd (next_draws (papp ds tp) s) =
        Ok (set_parents (seq (next s) (2 * Z.to_nat x)) gd) s' /\
      (1 <= x -> same_core (heap s b) (heap s' (next s))).
  Proof.
    intros ok NL t gd s x b l Hs K Hlt ND Ht Hl Hx Wb.
    assert (Ib : In b l) by (destruct Wb as (q & o & Hq & _); eapply nth_error_In; eauto).
    destruct (two_winners ok NL s None t l K ND) with (b1 := b) as (b2 & W2 & D2); auto; [lia|].
    assert (I2 : In b2 l) by (destruct W2 as (q & o & Hq & _); eapply nth_error_In; eauto).
    destruct (tournament_execute_reach ok NL t gd s x (repeat (b, b2) (Z.to_nat x))) as (ds & R); auto; fold l; auto; [lia|rewrite repeat_length; auto| |].
    - apply Forall_forall. intros p Hp. apply repeat_spec in Hp. subst. cbn. auto 6.
    - exists ds. intros f tp. destruct (R f tp) as (s' & E & F). rewrite repeat_length in *. exists s'. split; auto.
      intros Hx1. replace (Z.to_nat x) with (S (Z.to_nat (x - 1))) in F by lia. cbn in F. inversion F; subst. auto.
  Qed.

  (** *** What a selection can change *)
  (** Old individuals keep their contents (up to numbering and rank), and those outside
      the population are not touched at all. *)
  Definition touches_only (l : list nat) (s s' : st) : Prop :=
    frame s s' /\ forall r, (r < next s)%nat -> ~ In r l -> heap s' r = heap s r.
  Lemma touches_refl : forall l s, touches_only l s s.
  Proof. intros. split; [apply frame_refl|auto]. Qed.
  Lemma touches_trans : forall l a b c, touches_only l a b -> touches_only l b c -> touches_only l a c.
  Proof.
    intros l a b c [F1 H1] [F2 H2]. split; [eapply frame_trans; eauto|]. intros r Hr Hn. rewrite H2; auto.
    destruct F1 as (L & _). lia.
  Qed.
  Lemma touches_extends : forall l s s', extends s s' -> touches_only l s s'.
  Proof. intros l s s' X. split; [apply extends_frame; auto|]. intros r Hr _. destruct X as (_ & _ & _ & _ & X). auto. Qed.
  Lemma touches_base : forall gd s gd' s', base_execute gd s = Ok gd' s' -> touches_only (members (population gd)) s s'.
  Proof.
    intros gd s gd' s' H. apply base_execute_ok in H. destruct H as (_ & N & L & S & P & Rn). split.
    - split; [lia|]. split; auto. split; auto. split; auto. intros r _. apply (renumbered_core (members (population gd)) s s' r Rn).
    - intros r _ Hn. rewrite Rn. destruct (last_pos 0 (members (population gd)) r) eqn:E; auto. exfalso. apply Hn. apply (last_pos_in _ 0). congruence.
  Qed.
  Lemma touches_annotated : forall l s s', annotated l s s' -> touches_only l s s'.
  Proof. intros l s s' A. split; [eapply annotated_frame; eauto|]. intros r _ Hn. destruct A as (_ & _ & _ & _ & _ & _ & A & _). auto. Qed.
  Lemma touches_next : forall l s s', touches_only l s s' -> (next s <= next s')%nat.
  Proof. intros l s s' [[L _] _]. auto. Qed.

  (** One VEGA tournament: the block of objective k. *)
  Definition vega_block (s : st) (t : Z) (l : list nat) (k : Z) (prs : list (nat * nat)) : Prop :=
    Forall (fun p => In (fst p) l /\ In (snd p) l /\ fst p <> snd p /\
      (forall (ok : num -> Prop), NumOrder NO ok -> keys_ok ok s (Some k) l -> t <= Z.of_nat (length l) ->
         can_win s (Some k) t l (fst p) /\ can_win s (Some k) t l (snd p))) prs.
  Lemma flatten_app : forall a b, flatten_pairs (a ++ b) = flatten_pairs a ++ flatten_pairs b.
  Proof. intros. unfold flatten_pairs. apply flat_map_app. Qed.
  Lemma flatten_length : forall a, length (flatten_pairs a) = (2 * length a)%nat.
  Proof. induction a as [|[x y] a IH]; auto. rewrite flatten_cons. cbn [length]. lia. Qed.
  Lemma vega_tournament_ok : forall f m t gd s gd' s',
    let l := members (population gd) in
    (forall r, In r l -> (r < next s)%nat) ->
    selection_execute f (SelVegaTournament m t) gd s = Ok gd' s' ->
    2 <= t < num_individ (population gd) /\ touches_only l s s' /\
    exists blocks, length blocks = Z.to_nat m /\
      gd' = set_parents (seq (next s) (2 * length (concat blocks))) gd /\
      next s' = (next s + 2 * length (concat blocks))%nat /\
      (forall k prs, nth_error blocks k = Some prs ->
         (exists x, pairs_wanted (Some m) gd x /\ length prs = Z.to_nat x) /\ vega_block s t l (Z.of_nat k) prs) /\
      Forall2 (fun c p => same_core (heap s p) (heap s' c)) (seq (next s) (2 * length (concat blocks))) (flatten_pairs (concat blocks)).
  Proof.
    intros f m t gd s gd' s' l Hlt H. cbn [selection_execute] in H. bd H u s1 R1. apply check_size_ok in R1. destruct R1 as [Ht ->].
    split; auto. bd H gd1 s2 R2. pose proof (touches_base _ _ _ _ R2) as T2. fold l in T2.
    apply base_execute_ok in R2. destruct R2 as (-> & N2 & _ & _ & _ & Rn). change (renumbered l s s2) in Rn.
    set (Inv := fun (d : list Z) (g : gadata) (s3 : st) => extends s2 s3 /\ exists blocks, length blocks = length d /\
      g = set_parents (seq (next s) (2 * length (concat blocks))) gd /\ next s3 = (next s + 2 * length (concat blocks))%nat /\
      (forall k prs, nth_error blocks k = Some prs ->
         (exists x, pairs_wanted (Some m) gd x /\ length prs = Z.to_nat x) /\ vega_block s t l (Z.of_nat k) prs) /\
      Forall2 (fun c p => heap s3 c = heap s2 p) (seq (next s) (2 * length (concat blocks))) (flatten_pairs (concat blocks))).
    apply (mfold_inv _ Inv) in H.
    - destruct H as [X (blocks & Lb & -> & Nn & Hb & F)]. split; [eapply touches_trans; [exact T2|apply touches_extends; auto]|].
      exists blocks. rewrite zrange_length in Lb. replace (m - 0) with m in Lb by lia. split; auto. split; auto. split; auto. split; auto.
      eapply Forall2_impl; [|exact F]. intros c p E. rewrite E. apply (renumbered_core l s s2 p Rn).
    - split; [apply extends_refl|]. exists []. cbn. repeat split; auto; try lia; destruct k; discriminate.
    - intros d k rest g s3 g' s4 Ed [X (blocks & Lb & -> & Nn & Hb & F)] R. apply zrange_at in Ed. destruct Ed as [Ek _].
      assert (Hh : forall r, In r l -> heap s3 r = heap s2 r). { intros r Hr. destruct X as (_ & _ & _ & _ & X). apply X. rewrite N2. auto. }
      assert (Ekey : forall r, In r l -> key_at (Some k) (heap s3 r) = key_at (Some k) (heap s r)).
      { intros r Hr. rewrite Hh by auto. eapply renumbered_key; eauto. }
      apply (tournament_ok f (Some m) (Some k) t _ s3 g' s4 (fun b => forall (ok : num -> Prop), NumOrder NO ok -> keys_ok ok s (Some k) l ->
             t <= Z.of_nat (length l) -> can_win s (Some k) t l b)) in R.
      + destruct R as (x & prs & Hx & Lp & -> & N4 & X4 & Fp & F2). cbn [population set_parents parents members] in *. fold l in Fp.
        split; [eapply extends_trans; eauto|]. exists (blocks ++ [prs]). rewrite !app_length. cbn [length]. rewrite concat_app, app_length. cbn [concat].
        rewrite app_nil_r. split; [lia|]. replace (2 * (length (concat blocks) + length prs))%nat with (2 * length (concat blocks) + 2 * length prs)%nat by lia.
        rewrite seq_app, <- Nn. split; [reflexivity|]. split; [lia|]. split.
        * intros k0 prs0 E0. destruct (lt_dec k0 (length blocks)) as [L|L].
          { rewrite nth_error_app1 in E0 by auto. auto. }
          { rewrite nth_error_app2 in E0 by lia. destruct (k0 - length blocks)%nat as [|j] eqn:Ej; [|destruct j; discriminate].
            inversion E0; subst prs0. replace (Z.of_nat k0) with k by lia. split; [exists x; split; auto|].
            eapply Forall_impl; [|exact Fp]. intros [p1 p2]. cbn. intros (I1 & I2 & W1 & W2 & D). split; auto. split; auto. split.
            - rewrite !Hh in D by auto. eapply renumbered_distinct; eauto.
            - intros ok NL K Hl. split; eauto. }
        * rewrite flatten_app. apply Forall2_app.
          { assert (Hlt' : forall c, In c (seq (next s) (2 * length (concat blocks))) -> (c < next s3)%nat) by (intros c Hc; apply in_seq in Hc; lia).
            clear - F Hlt' X4. destruct X4 as (_ & _ & _ & _ & X4). revert Hlt'. induction F; intros; constructor.
            - rewrite X4; auto. apply Hlt'. left; auto.
            - apply IHF. intros. apply Hlt'. right; auto. }
          { assert (Hp : forall p, In p (flatten_pairs prs) -> In p l).
            { intros p Hp. unfold flatten_pairs in Hp. apply in_flat_map in Hp. destruct Hp as ([a b] & Hab & Hp). rewrite Forall_forall in Fp.
              destruct (Fp _ Hab) as (I1 & I2 & _). cbn in *. destruct Hp as [<-|[<-|[]]]; auto. }
            clear - F2 Hp Hh. revert Hp. induction F2; intros; constructor.
            - rewrite H. apply Hh, Hp. left; auto.
            - apply IHF2. intros. apply Hp. right; auto. }
      + intros s5 b s6 Hh5 R5 ok NL K Hl. cbn [population set_parents] in *. fold l in Hh5, R5, K.
        assert (Ek5 : forall r, In r l -> key_at (Some k) (heap s5 r) = key_at (Some k) (heap s r)) by (intros r Hr; rewrite Hh5 by auto; auto).
        assert (P : possible_in s5 (run_tournament (Some k) t l) (can_win s5 (Some k) t l)).
        { apply (run_tournament_possible ok); auto; [|lia]. apply (keys_ok_key ok s s5); auto. }
        apply (possible_in_sound _ _ _ _ _ P) in R5. destruct R5 as [R5 _].
        apply (can_win_key s5 s); auto. intros r Hr. symmetry. auto.
      + cbn [population set_parents]. fold l. intros r Hr. rewrite Nn. specialize (Hlt r Hr). lia.
  Qed.

  (** One balanced pass, as a frame. *)
  Lemma balanced_pass_touches : forall f ranked m idx gd s gd' s', (forall r, In r (members (population gd)) -> (r < next s)%nat) ->
    balanced_pass f ranked m idx gd s = Ok gd' s' ->
    touches_only (members (population gd)) s s' /\ exists n, gd' = set_parents (seq (next s) n) gd /\ next s' = (next s + n)%nat.
  Proof.
    intros f ranked m idx gd s gd' s' Hlt H. apply balanced_pass_ok in H; auto.
    destruct H as (s1 & s2 & ws & scores & x & prs & Rn & N1 & _ & A & Fr & _ & _ & _ & _ & -> & N & X & _).
    split; [|exists (2 * length prs)%nat; auto]. split; [eapply frame_trans; [exact Fr|apply extends_frame; exact X]|].
    intros r Hr Hn. assert (N2 : next s2 = next s) by (destruct A; congruence).
    destruct X as (_ & _ & _ & _ & X). rewrite X by (rewrite N2; auto). destruct A as (_ & _ & _ & _ & _ & _ & A & _). rewrite A by auto. rewrite Rn.
    destruct (last_pos 0 (members (population gd)) r) eqn:E; auto. exfalso. apply Hn. apply (last_pos_in _ 0). congruence.
  Qed.
  (** VEGA balanced and ranked selection: only the last pass counts. *)
  Lemma vega_passes_ok : forall f ranked m ks gd s gd' s', (forall r, In r (members (population gd)) -> (r < next s)%nat) -> ks <> [] ->
    mfold (fun g i => balanced_pass f ranked (Some m) (Some i) g) ks gd s = Ok gd' s' ->
    exists g0 s0, touches_only (members (population gd)) s s0 /\ population g0 = population gd /\ children_percent g0 = children_percent gd /\
      set_parents [] g0 = set_parents [] gd /\
      balanced_pass f ranked (Some m) (Some (last ks 0)) g0 s0 = Ok gd' s'.
  Proof.
    intros f ranked m ks. induction ks as [|k ks IH]; intros gd s gd' s' Hlt Ne H; [congruence|]. cbn [mfold] in H. bd H g1 s1 R1.
    destruct ks as [|k2 ks].
    - cbn [mfold] in H. apply ret_ok in H. destruct H as [-> ->]. exists gd, s. split; [apply touches_refl|]. auto.
    - destruct (balanced_pass_touches _ _ _ _ _ _ _ _ Hlt R1) as (T & n & -> & N1).
      destruct (IH (set_parents (seq (next s) n) gd) s1 gd' s') as (g0 & s0 & T0 & P0 & C0 & E0 & R0); auto; [intros r Hr; apply Hlt in Hr; lia|discriminate|].
      exists g0, s0. split; [eapply touches_trans; eauto|]. split; [exact P0|]. split; [exact C0|]. split; [exact E0|exact R0].
  Qed.
  Lemma set_rank_iter : forall v l s u s', miter (fun r => modify r (set_rank v)) l s = Ok u s' ->
    annotated l s s' /\ forall r, In r l -> rank (heap s' r) = v.
  Proof.
    intros v. induction l as [|r l IH]; intros s u s' H; cbn [miter] in H.
    - apply ret_ok in H. destruct H as [_ ->]. split; [apply annotated_refl|]. intros r [].
    - bd H u0 s1 R. apply modify_ok in R. apply IH in H. destruct H as [A K].
      assert (A1 : annotated (r :: l) s s1).
      { subst. repeat split; auto; cbn [heap set_heap]; intros r'.
        - intros Hn. unfold upd. destruct (Nat.eqb_spec r' r); auto. subst. exfalso. apply Hn. left. auto.
        - unfold upd. destruct (Nat.eqb_spec r' r); [subst; eauto|]. exists (rank (heap s r')). destruct (heap s r'); reflexivity. }
      assert (A2 : annotated (r :: l) s1 s').
      { destruct A as (B1 & B2 & B3 & B4 & B5 & B6 & B7 & B8). repeat split; auto. intros r' Hn. apply B7. intros C. apply Hn. right. auto. }
      split; [eapply annotated_trans; eauto|]. intros r' [<-|Hr']; auto.
      destruct (in_dec Nat.eq_dec r l) as [i|i]; auto. destruct A as (_ & _ & _ & _ & _ & _ & B7 & _). rewrite B7 by auto. subst. cbn [heap set_heap]. unfold upd. rewrite Nat.eqb_refl. reflexivity.
  Qed.
  Lemma last_zrange : forall m, 1 <= m -> zrange 0 m <> [] /\ last (zrange 0 m) 0 = m - 1.
  Proof.
    intros m Hm. rewrite zrange_eq. replace (Z.to_nat (m - 0)) with (S (Z.to_nat (m - 1))) by lia. rewrite seq_S, map_app. cbn [map]. split.
    - destruct (map (fun i => 0 + Z.of_nat i) (seq 0 (Z.to_nat (m - 1)))); discriminate.
    - rewrite last_last. lia.
  Qed.
  (** Any selection operator. *)
  Definition objectives_ok (sel : selection) : Prop :=
    match sel with SelVegaBalanced m | SelVegaRanked m => 1 <= m | _ => True end.
  Lemma selection_touches : forall f sel gd s gd' s', (forall r, In r (members (population gd)) -> (r < next s)%nat) -> objectives_ok sel ->
    selection_execute f sel gd s = Ok gd' s' ->
    touches_only (members (population gd)) s s' /\
    exists a n, gd' = set_parents (seq a n) gd /\ (next s <= a)%nat /\ next s' = (a + n)%nat.
  Proof.
    intros f sel gd s gd' s' Hlt Ho H. destruct sel as [t| | |m t|m|m].
    - pose proof H as H'. cbn [selection_execute] in H'. bd H' u s1 R1. apply check_size_ok in R1. destruct R1 as [_ ->].
      bd H' gd1 s2 R2. pose proof (touches_base _ _ _ _ R2) as T2. apply base_execute_ok in R2. destruct R2 as (-> & N2 & _).
      apply (tournament_ok f None None t _ s2 gd' s' (fun _ => True)) in H'; auto.
      + destruct H' as (x & prs & _ & _ & -> & N & X & _). cbn [parents set_parents app] in *. split; [eapply touches_trans; [exact T2|apply touches_extends; auto]|].
        exists (next s2), (2 * length prs)%nat. split; [reflexivity|]. split; [lia|auto].
      + cbn [population set_parents]. rewrite N2. auto.
    - cbn [selection_execute] in H. apply balanced_pass_touches in H; auto. destruct H as (T & n & -> & N). split; auto. exists (next s), n. auto.
    - cbn [selection_execute] in H. apply balanced_pass_touches in H; auto. destruct H as (T & n & -> & N). split; auto. exists (next s), n. auto.
    - apply vega_tournament_ok in H; auto. destruct H as (_ & T & blocks & _ & -> & N & _). split; auto. eexists _, _. split; [reflexivity|]. split; [lia|auto].
    - cbn [selection_execute] in H. destruct (last_zrange m Ho) as [Ne _]. apply vega_passes_ok in H; auto. destruct H as (g0 & s0 & T0 & P0 & C0 & E0 & R0).
      apply balanced_pass_touches in R0; [|rewrite P0; intros r Hr; apply Hlt in Hr; apply touches_next in T0; lia]. rewrite P0 in R0. destruct R0 as (T & n & -> & N).
      split; [eapply touches_trans; eauto|]. exists (next s0), n. split; [|split; [apply touches_next in T0; auto|auto]].
      change (set_parents (seq (next s0) n) g0) with (set_parents (seq (next s0) n) (set_parents [] g0)). rewrite E0. reflexivity.
    - cbn [selection_execute] in H. bd H u s1 R1. apply set_rank_iter in R1. destruct R1 as [A1 _]. pose proof (touches_annotated _ _ _ A1) as T1.
      destruct (last_zrange m Ho) as [Ne _]. assert (N1 : next s1 = next s) by (destruct A1; auto).
      apply vega_passes_ok in H; auto; [|rewrite N1; auto]. destruct H as (g0 & s0 & T0 & P0 & C0 & E0 & R0).
      apply balanced_pass_touches in R0; [|rewrite P0; intros r Hr; apply Hlt in Hr; apply touches_next in T0; lia]. rewrite P0 in R0. destruct R0 as (T & n & -> & N).
      split; [eapply touches_trans; [exact T1|eapply touches_trans; eauto]|]. exists (next s0), n. split; [|split; [apply touches_next in T0; lia|auto]].
      change (set_parents (seq (next s0) n) g0) with (set_parents (seq (next s0) n) (set_parents [] g0)). rewrite E0. reflexivity.
  Qed.
End Vega.
