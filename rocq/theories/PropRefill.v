(** Statement C93: filling a population that already has members. *)
From Coq Require Import String.
From Coq Require Import ZArith QArith List Bool Lia.
From Verif Require Import Spec Num State Binary Population GaData Mutation Fitness Refill ListLemmas Rnd Exec Laws CodingProofs CrossoverProofs
  PopulationProofs UpdateProofs PropCoding PropPopulation PropMutation Demo.
Import ListNotations.
Open Scope list_scope.
Open Scope Z_scope.

Section C93.
  Context {NO : NumOps}.
  (** The parameters of the genes stand [k] times in the lists, and idx_bits goes on counting. *)
  Definition repeated (k : nat) (b1 b : bparams) : Prop :=
    num_bits b = concat (repeat (num_bits b1) k) /\ real_num_points b = concat (repeat (real_num_points b1) k) /\
    real_step b = concat (repeat (real_step b1) k) /\ last (idx_bits b) 0 = Z.of_nat k * last (idx_bits b1) 0 /\
    firstn (List.length (idx_bits b1)) (idx_bits b) = idx_bits b1.
  Lemma psums_length : forall ns a, List.length (psums a ns) = List.length ns.
  Proof. induction ns; intros; cbn; auto. Qed.
  Lemma last_psums : forall ns l a, last (l ++ psums a ns) a = last l a \/ ns <> [].
  Proof. intros [|n ns] l a; [left; cbn; rewrite app_nil_r; reflexivity|right; discriminate]. Qed.
  Lemma psums_last : forall ns a d, last (a :: psums a ns) d = a + zsum ns.
  Proof.
    induction ns as [|n ns IH]; intros a d; [cbn; lia|]. cbn [psums]. change (last (a :: (a + n) :: psums (a + n) ns) d) with (last ((a + n) :: psums (a + n) ns) d).
    rewrite IH. unfold zsum. cbn [fold_right]. lia.
  Qed.
  Lemma last_app_psums : forall l ns, l <> [] -> last (l ++ psums (last l 0) ns) 0 = last l 0 + zsum ns.
  Proof.
    intros l ns H. destruct (exists_last H) as (l' & x & ->). rewrite last_last, <- app_assoc. cbn [app].
    rewrite <- (psums_last ns x 0). clear. induction l' as [|y l' IH]; [reflexivity|]. cbn [app]. rewrite <- IH.
    destruct (l' ++ x :: psums x ns) eqn:E; [destruct l'; discriminate E|reflexivity].
  Qed.
  (** A second fill succeeds in computing the parameters whenever the first did, and
      appends them once more. *)
  Theorem C93_parameters : forall gray gens b0 b1 k b, prepare (GenBinary gray gens b0) = inr (GenBinary gray gens b1) -> repeated k b1 b -> (1 <= k)%nat ->
    exists b', prepare_more (GenBinary gray gens b) = inr (GenBinary gray gens b') /\ repeated (S k) b1 b'.
  Proof.
    intros gray gens b0 b1 k b H (R1 & R2 & R3 & R4 & R5) Hk. cbn [prepare] in H. destruct (get_gens_params gens) as [e|b1'] eqn:E; [discriminate H|]. injection H as ->.
    apply get_gens_params_inv in E. destruct E as (ps & F & ->). cbn [prepare_more]. rewrite (gens_params_ok _ _ b F). eexists. split; [reflexivity|].
    unfold repeated. cbn [num_bits real_num_points real_step idx_bits params_of] in *.
    assert (CR : forall (A : Type) (x : list A), concat (repeat x k) ++ x = concat (repeat x (S k))).
    { intros A x. clear. induction k as [|k IH]; [cbn; rewrite app_nil_r; reflexivity|]. cbn [repeat concat] in *. rewrite <- app_assoc, IH. reflexivity. }
    rewrite R1, R2, R3, !CR. do 3 (split; [reflexivity|]). rewrite (psums_last (map fst ps) 0 0) in *.
    assert (Hl : idx_bits b <> []). { intros C. rewrite C in R5. cbn in R5. destruct (psums 0 (map fst ps)); discriminate R5. }
    split.
    - rewrite last_app_psums by exact Hl. rewrite R4. lia.
    - rewrite firstn_app, R5. pose proof (f_equal (@List.length Z) R5) as L. rewrite firstn_length in L.
      replace (_ - _)%nat with 0%nat by lia. cbn [firstn]. rewrite app_nil_r. reflexivity.
  Qed.
  (** The parameters read by decoding and coding are the same after any number of fills. *)
  Lemma leading_repeated : forall gray gens b0 b1 k b, prepare (GenBinary gray gens b0) = inr (GenBinary gray gens b1) -> repeated k b1 b -> (1 <= k)%nat ->
    leading (GenBinary gray gens b) = GenBinary gray gens b1.
  Proof.
    intros gray gens b0 b1 k b H (R1 & R2 & R3 & R4 & R5) Hk. cbn [prepare] in H. destruct (get_gens_params gens) as [e|b1'] eqn:E; [discriminate H|]. injection H as ->.
    apply get_gens_params_inv in E. destruct E as (ps & F & ->). cbn [leading]. pose proof (Forall2_length _ _ _ F) as L.
    destruct k as [|k]; [lia|]. cbn [repeat concat num_bits real_num_points real_step idx_bits params_of] in *. rewrite R1, R2, R3.
    assert (FA : forall (A : Type) (x y : list A), List.length x = List.length gens -> firstn (List.length gens) (x ++ y) = x).
    { intros A x y <-. rewrite firstn_app, Nat.sub_diag, firstn_all. cbn. apply app_nil_r. }
    rewrite !FA by (rewrite map_length; auto). replace (S (List.length gens)) with (List.length (0 :: psums 0 (map fst ps))) by (cbn; rewrite psums_length, map_length; auto).
    rewrite R5. reflexivity.
  Qed.
  Lemma decode_loop_more : forall gray gens steps idxs steps' idxs' bits, (List.length gens <= List.length steps)%nat -> (S (List.length gens) <= List.length idxs)%nat ->
    decode_loop gray gens (steps ++ steps') (idxs ++ idxs') bits = decode_loop gray gens steps idxs bits.
  Proof.
    intros gray. induction gens as [|g gens IH]; intros steps idxs steps' idxs' bits L1 L2; [reflexivity|].
    destruct steps as [|stp steps]; [cbn in L1; lia|]. destruct idxs as [|a [|b idxs]]; try (cbn in L2; lia). cbn [app decode_loop].
    destruct (decode_gene gray g stp (slice bits a b)); auto. change (b :: idxs ++ idxs') with ((b :: idxs) ++ idxs'). rewrite IH; [reflexivity|cbn in *; lia|cbn in *; lia].
  Qed.
  Theorem C93_decoding : forall gray gens b0 b1 k b, prepare (GenBinary gray gens b0) = inr (GenBinary gray gens b1) -> repeated k b1 b -> (1 <= k)%nat ->
    forall x, decode_genotype gray gens b x = decode_genotype gray gens b1 x.
  Proof.
    intros gray gens b0 b1 k b H (R1 & R2 & R3 & R4 & R5) Hk x. cbn [prepare] in H. destruct (get_gens_params gens) as [e|b1'] eqn:E; [discriminate H|]. injection H as ->.
    apply get_gens_params_inv in E. destruct E as (ps & F & ->). pose proof (Forall2_length _ _ _ F) as L. unfold decode_genotype. destruct (geno_to_bits x) as [bs|]; [|reflexivity].
    unfold binary_individ_to_float. destruct k as [|k]; [lia|]. cbn [repeat concat] in R3. rewrite R3.
    rewrite <- (firstn_skipn (List.length (idx_bits (params_of ps))) (idx_bits b)), R5. rewrite decode_loop_more; [reflexivity| |];
      cbn [params_of real_step idx_bits List.length]; rewrite ?psums_length, ?map_length; lia.
  Qed.
  Lemma encode_loop_more : forall gray gens steps nbs steps' nbs' xs, (List.length gens <= List.length steps)%nat -> (List.length gens <= List.length nbs)%nat ->
    encode_loop gray gens (steps ++ steps') (nbs ++ nbs') xs = encode_loop gray gens steps nbs xs.
  Proof.
    intros gray. induction gens as [|g gens IH]; intros steps nbs steps' nbs' xs L1 L2; [destruct xs; reflexivity|].
    destruct steps as [|stp steps]; [cbn in L1; lia|]. destruct nbs as [|n nbs]; [cbn in L2; lia|]. destruct xs as [|x xs]; [reflexivity|]. cbn [app encode_loop].
    rewrite IH by (cbn in *; lia). reflexivity.
  Qed.
  Theorem C93_coding : forall gray gens b0 b1 k b, prepare (GenBinary gray gens b0) = inr (GenBinary gray gens b1) -> repeated k b1 b -> (1 <= k)%nat ->
    forall x, input_genotype (GenBinary gray gens b) x = input_genotype (GenBinary gray gens b1) x.
  Proof.
    intros gray gens b0 b1 k b H (R1 & R2 & R3 & R4 & R5) Hk x. cbn [prepare] in H. destruct (get_gens_params gens) as [e|b1'] eqn:E; [discriminate H|]. injection H as ->.
    apply get_gens_params_inv in E. destruct E as (ps & F & ->). pose proof (Forall2_length _ _ _ F) as L.
    destruct k as [|k]; [lia|]. cbn [repeat concat] in R1, R3.
    assert (EL : forall xs, encode_loop gray gens (real_step b) (num_bits b) xs = encode_loop gray gens (real_step (params_of ps)) (num_bits (params_of ps)) xs).
    { intros xs. rewrite R1, R3. apply encode_loop_more; cbn [params_of real_step num_bits]; rewrite map_length; lia. }
    cbn [input_genotype]. unfold float_individ_to_binary. destruct (gvs_num x); rewrite ?EL; reflexivity.
  Qed.

  (** [g] is the specification of a population that was filled at least once, [g1] what the
      first fill made of it. *)
  Definition filled_before (g g1 : gspec) : Prop :=
    match g with
    | GenBinary gray gens b => exists b0 b1 k, prepare (GenBinary gray gens b0) = inr (GenBinary gray gens b1) /\
        (1 <= k)%nat /\ repeated k b1 b /\ g1 = GenBinary gray gens b1
    | _ => g1 = g
    end.
  Lemma nodup_app2 : forall (l l' : list nat), NoDup l -> NoDup l' -> (forall x, In x l -> In x l' -> False) -> NoDup (l ++ l').
  Proof.
    induction l as [|x l IH]; intros l' N N' D; cbn; auto. inversion N; subst. constructor.
    - intros C. apply in_app_or in C. destruct C as [C|C]; [auto|]. apply (D x); [left; auto|auto].
    - apply IH; auto. intros y Hy. apply D. right; auto.
  Qed.
  Lemma generate_more_ok : forall g k s rs s',
    mrepeat k (geno <- get_generated_individ (leading g) ;; alloc (new_individ g geno)) s = Ok rs s' ->
    rs = seq (next s) k /\ next s' = (next s + k)%nat /\ extends s s' /\
    Forall (fun r => exists geno s1 s2, get_generated_individ (leading g) s1 = Ok geno s2 /\ heap s' r = new_individ g geno) rs.
  Proof. intros g k s rs s' H. destruct g; exact (generate_loop_ok (leading _) k s rs s' H). Qed.
  Theorem C93_fill_more : forall p g1 s p' s', neqb (nofZ 0) nzero = true -> filled_before (gspec_of p) g1 ->
    NoDup (members p) -> (forall r, In r (members p) -> (r < next s)%nat) -> fill_more p s = Ok p' s' ->
    exists new,
      (** as many new members as a first fill makes, behind the old ones *)
      members p' = members p ++ new /\ NoDup (members p') /\ (forall r, In r new -> (next s <= r)%nat) /\
      Z.of_nat (List.length new) = Z.max (num_individ p) (Z.of_nat (List.length (input_population p))) /\
      (** the flag is_sorted and the rest of the population object stay *)
      is_sorted p' = is_sorted p /\ num_individ p' = num_individ p /\ input_population p' = input_population p /\ filled_before (gspec_of p') g1 /\
      log s' = log s /\ (forall r, (r < next s)%nat -> ~ In r (members p) -> heap s' r = heap s r) /\
      (** the old members keep everything but their number; a phenotype that was None is decoded *)
      (forall i r, nth_error (members p) i = Some r -> exists ph, heap s' r = set_idx (Some (Z.of_nat i)) (set_phenotype ph (heap s r)) /\
         (phenotype (heap s r) <> Some None -> ph = phenotype (heap s r)) /\
         (is_phenotype g1 = false -> ph = phenotype (heap s r)) /\
         match g1 with GenBinary gray gens b1 => phenotype (heap s r) = Some None -> exists xs, ph = Some (Some xs) /\ decode_genotype gray gens b1 (genotype (heap s r)) = inr xs | _ => True end) /\
      (** the new ones are as after a first fill, numbered on *)
      (forall i r, nth_error new i = Some r -> just_filled g1 (List.length (members p) + i) (heap s' r) /\
         match nth_error (input_population p) i with
         | Some x => input_genotype g1 x = inr (genotype (heap s' r))
         | None => in_domain g1 (genotype (heap s' r))
         end).
  Proof.
    intros p g1 s p' s' Z0 FB ND Hold H. unfold fill_more in H. bd H g s0 R0. apply lift_ok in R0. destruct R0 as [Hg ->].
    bd H inp s1 R1. bd H gn s2 R2. bd H u s3 R3. bd H v s4 R4. apply ret_ok in H. destruct H as [-> ->].
    assert (G : leading g = g1 /\ is_phenotype g = is_phenotype g1 /\ (forall x, input_genotype g x = input_genotype g1 x) /\ filled_before g g1 /\ binary_ok g1 /\
       forall gray gens b, g = GenBinary gray gens b -> exists b1, g1 = GenBinary gray gens b1 /\ forall x, decode_genotype gray gens b x = decode_genotype gray gens b1 x).
    { unfold filled_before in FB. destruct (gspec_of p) as [gray gens b| |]; cbn [prepare_more] in Hg.
      - destruct FB as (b0 & b1 & k & Hp & Hk & Rp & ->). destruct (C93_parameters _ _ _ _ _ _ Hp Rp Hk) as (b' & Hp' & Rp').
        cbn [prepare_more] in Hp'. rewrite Hg in Hp'. injection Hp' as ->.
        split; [eapply leading_repeated; eauto; lia|]. split; [reflexivity|]. split; [eapply C93_coding; eauto; lia|]. split; [exists b0, b1, (S k); auto with arith|].
        split; [destruct (prepared_usable _ _ _ _ Z0 Hp) as (bp' & Eg & U & _); exact U|].
        intros gray' gens' b'' E. injection E as <- <- <-. exists b1. split; auto. eapply C93_decoding; eauto; lia.
      - injection Hg as <-. subst g1. cbn. repeat split; auto. intros; discriminate.
      - injection Hg as <-. subst g1. cbn. repeat split; auto. intros; discriminate. }
    destruct G as (G1 & G2 & G3 & G4 & G5 & G6).
    apply input_loop_ok in R1. destruct R1 as (Ei & N1 & X1 & F1).
    apply generate_more_ok in R2. destruct R2 as (Eg & N2 & X2 & F2). rewrite G1 in F2.
    set (k := Z.to_nat (num_individ p - Z.of_nat (List.length (input_population p)))) in *.
    set (new := inp ++ gn) in *.
    assert (El : new = seq (next s) (List.length (input_population p) + k)) by (unfold new; rewrite Ei, Eg, N1, seq_app; reflexivity).
    assert (Hnew : forall r, In r new -> (next s <= r < next s2)%nat) by (intros r Hr; rewrite El in Hr; apply in_seq in Hr; lia).
    assert (ND' : NoDup (members p ++ new)).
    { apply nodup_app2; auto; [rewrite El; apply seq_NoDup|]. intros r Hr Hr'. specialize (Hold r Hr). specialize (Hnew r Hr'). lia. }
    pose proof (extends_trans _ _ _ X1 X2) as (_ & X4 & _ & _ & X7).
    set (l := members p ++ new) in *.
    assert (P3 : next s3 = next s2 /\ log s3 = log s2 /\
      (forall r, ~ In r l -> heap s3 r = heap s2 r) /\
      (forall r, same_but_phenotype g (heap s2 r) (heap s3 r)) /\
      (forall r, In r l -> is_phenotype g = true -> exists ph, phenotype (heap s3 r) = Some (Some ph)) /\
      (is_phenotype g = false -> forall r, heap s3 r = heap s2 r)).
    { destruct (is_phenotype g) eqn:Eph.
      - apply get_phenotype_ok in R3. destruct R3 as (A1 & A2 & A3 & A4 & _ & _ & A5 & A6 & A7). repeat split; auto. discriminate.
      - apply ret_ok in R3. destruct R3 as [_ ->]. repeat split; auto; [left; auto|discriminate]. }
    destruct P3 as (N3 & L3 & Hni3 & Hs3 & Hp3 & Hf3).
    unfold reset_idx_individ in R4. apply reset_idx_ok in R4. destruct R4 as (N4 & L4 & _ & _ & _ & _ & Hh4).
    assert (E4 : forall i r, nth_error l i = Some r -> heap s4 r = set_idx (Some (Z.of_nat i)) (heap s3 r)).
    { intros i r Hi. rewrite Hh4. rewrite (last_pos_nodup l 0 r i); auto. }
    exists new. cbn [members set_members is_sorted num_individ input_population gspec_of set_gspec].
    split; [reflexivity|]. split; [exact ND'|]. split; [intros r Hr; apply Hnew in Hr; lia|]. split; [rewrite El, seq_length; unfold k; lia|].
    split; [reflexivity|]. split; [reflexivity|]. split; [reflexivity|]. split; [exact G4|]. split; [congruence|]. split; [|split].
    - intros r Hr Hn. assert (Hl : ~ In r l). { intros C. apply in_app_or in C. destruct C as [C|C]; auto. apply Hnew in C. lia. }
      rewrite Hh4. destruct (last_pos 0 l r) eqn:E; [exfalso; apply Hl; apply (last_pos_in l 0); congruence|]. rewrite Hni3, X7; auto.
    - intros i r Hi. assert (Hil : nth_error l i = Some r) by (unfold l; rewrite nth_error_app1; auto; apply nth_error_Some; congruence).
      rewrite (E4 _ _ Hil). assert (Ir : In r (members p)) by (eapply nth_error_In; eauto). rewrite <- (X7 r (Hold r Ir)).
      exists (phenotype (heap s3 r)). destruct (Hs3 r) as [E3|(Ph & gray & gens & bp & ph & -> & D & E3)].
      + rewrite E3. split; [destruct (heap s2 r); reflexivity|]. split; auto. split; auto. destruct g1; auto. intros C. exfalso.
        assert (Il : In r l) by (eapply nth_error_In; eauto). destruct (Hp3 r Il ltac:(rewrite G2; reflexivity)) as [ph Ph]. rewrite E3, C in Ph. discriminate Ph.
      + rewrite E3. split; [destruct (heap s2 r); reflexivity|]. split; [contradiction|]. destruct (G6 _ _ _ eq_refl) as (b1 & -> & Dm). split; [discriminate|].
        intros _. exists ph. split; [destruct (heap s2 r); reflexivity|]. rewrite <- Dm. exact D.
    - intros i r Hi. assert (Hil : nth_error l (List.length (members p) + i) = Some r) by (unfold l; rewrite nth_error_app2 by lia; rewrite <- Hi; f_equal; lia).
      assert (Il : In r l) by (eapply nth_error_In; eauto). assert (Inew : In r new) by (eapply nth_error_In; eauto).
      assert (E2 : exists geno, heap s2 r = new_individ g geno /\
         match nth_error (input_population p) i with
         | Some x => input_genotype g1 x = inr geno
         | None => in_domain g1 geno
         end).
      { destruct (lt_dec i (List.length (input_population p))) as [Hlt|Hge].
        - destruct (nth_error (input_population p) i) as [x|] eqn:Ex; [|apply nth_error_None in Ex; lia].
          assert (Hr : nth_error inp i = Some r) by (rewrite <- Hi; unfold new; rewrite nth_error_app1; auto; rewrite Ei, seq_length; auto).
          assert (K : forall (P : list gv -> nat -> Prop) a b, Forall2 P a b -> forall i x r, nth_error a i = Some x -> nth_error b i = Some r -> P x r).
          { clear. induction 1; intros [|i] x0 r Ha Hb; simpl in *; try discriminate; [inversion Ha; inversion Hb; subst; auto|eauto]. }
          destruct (K _ _ _ F1 i x r Ex Hr) as (geno & E & Eh). exists geno. rewrite <- G3. split; auto.
          destruct X2 as (_ & _ & _ & _ & X2). rewrite X2; auto. rewrite Ei in Hr. apply nth_error_In, in_seq in Hr. lia.
        - assert (Ex : nth_error (input_population p) i = None) by (apply nth_error_None; lia). rewrite Ex.
          assert (Hr : In r gn).
          { unfold new in Hi. rewrite nth_error_app2 in Hi; [|rewrite Ei, seq_length; lia]. eapply nth_error_In; eauto. }
          rewrite Forall_forall in F2. destruct (F2 r Hr) as (geno & sa & sb & Eg' & Eh). exists geno. split; auto. eapply generated_ok; eauto. }
      destruct E2 as (geno & E2 & Hin). rewrite (E4 _ _ Hil). unfold just_filled.
      destruct (Hs3 r) as [E3|(Ph & gray & gens & bp & ph & -> & D & E3)].
      + rewrite E3, E2. cbn [genotype phenotype score obj_score feasible idx_individ set_idx new_individ]. split; [|exact Hin]. do 4 (split; [reflexivity|]).
        destruct g1 as [gray gens bp| |] eqn:Eg1; try (rewrite G2; reflexivity). exfalso.
        destruct (Hp3 r Il ltac:(rewrite G2; reflexivity)) as [ph Ph]. rewrite E3, E2 in Ph. cbn in Ph. rewrite G2 in Ph. discriminate Ph.
      + rewrite E3, E2 in *. cbn [genotype phenotype score obj_score feasible idx_individ set_idx set_phenotype new_individ] in *. split; [|exact Hin]. do 4 (split; [reflexivity|]).
        destruct (G6 _ _ _ eq_refl) as (b1 & -> & Dm). exists ph. split; auto. rewrite <- Dm. exact D.
  Qed.
  (** No exception when the first fill of the same population had none and the old members
      are decoded. *)
  Theorem C93_never_raises : forall p g1 s e, neqb (nofZ 0) nzero = true -> filled_before (gspec_of p) g1 ->
    match g1 with GenBinary _ _ _ => True | _ => spec_usable g1 end ->
    Forall (fun x => exists geno, input_genotype g1 x = inr geno /\ (is_phenotype g1 = true -> in_domain g1 geno)) (input_population p) ->
    (forall r, In r (members p) -> (r < next s)%nat /\ exists xs, phenotype (heap s r) = Some (Some xs)) ->
    fill_more p s <> Err e.
  Proof.
    intros p g1 s e Z0 FB U Hin Hold. assert (X : safe (fill_more p) s); [|exact (X e)]. unfold fill_more.
    assert (G : exists g, prepare_more (gspec_of p) = inr g /\ leading g = g1 /\ is_phenotype g = is_phenotype g1 /\ (forall x, input_genotype g x = input_genotype g1 x) /\ spec_usable g1 /\
       match g1 with
       | GenBinary gray gens b1 => exists b, g = GenBinary gray gens b /\ (forall x, decode_genotype gray gens b x = decode_genotype gray gens b1 x) /\
           exists ps, b1 = params_of ps /\ Forall2 (fun g p => gene_params g = inr p) gens ps
       | _ => True end).
    { unfold filled_before in FB. destruct (gspec_of p) as [gray gens b| |].
      - destruct FB as (b0 & b1 & k & Hp & Hk & Rp & ->). destruct (C93_parameters _ _ _ _ _ _ Hp Rp Hk) as (b' & Hp' & Rp'). eexists. split; [exact Hp'|].
        split; [eapply leading_repeated; eauto; lia|]. split; [reflexivity|]. split; [eapply C93_coding; eauto; lia|].
        destruct (prepared_usable _ _ _ _ Z0 Hp) as (bp' & Eg & Us & ps & Eps & F). injection Eg as <-. split; [exact Us|]. exists b'. split; [reflexivity|].
        split; [eapply C93_decoding; eauto; lia|]. eauto.
      - subst g1. eexists. split; [reflexivity|]. do 3 (split; [reflexivity|]). split; [exact U|exact I].
      - subst g1. eexists. split; [reflexivity|]. do 3 (split; [reflexivity|]). split; [exact U|exact I]. }
    destruct G as (g & Hg & G1 & G2 & G3 & Us & G4).
    apply safe_bind; [eapply safe_lift; eauto|]. intros g' s0 R0. apply lift_ok in R0. destruct R0 as [E ->]. rewrite Hg in E. injection E as <-.
    apply safe_bind.
    { apply safe_mmap with (P := fun _ _ => True); auto. intros d x rest s1 El _.
      rewrite Forall_forall in Hin. destruct (Hin x) as (geno & Ex & _); [rewrite El; apply in_or_app; right; left; auto|]. rewrite <- G3 in Ex.
      apply safe_bind; [eapply safe_lift; eauto|intros; apply safe_alloc]. }
    intros inp s1 R1. apply safe_bind.
    { apply safe_mrepeat with (P := fun _ => True); auto. intros s2 _. rewrite G1.
      apply safe_bind; [eapply safe_possible, generated_possible; auto|intros; apply safe_alloc]. }
    intros gn s2 R2. apply safe_bind.
    { destruct (is_phenotype g) eqn:Ph; [|apply safe_ret]. apply get_phenotype_safe. intros r Hr.
      apply input_loop_ok in R1. destruct R1 as (Ei & N1 & X1 & F1).
      apply generate_more_ok in R2. destruct R2 as (Eg & N2 & X2 & F2). rewrite G1 in F2.
      destruct g1 as [gray gens b1| |]; try (symmetry in G2; discriminate G2). destruct G4 as (b & -> & Dm & ps & -> & F).
      apply in_app_or in Hr. destruct Hr as [Hr|Hr].
      - destruct (Hold r Hr) as [Hlt (xs & Ex)]. pose proof (extends_trans _ _ _ X1 X2) as (_ & _ & _ & _ & X7). rewrite X7 by exact Hlt. rewrite Ex. eauto.
      - assert (K : exists geno, heap s2 r = new_individ (GenBinary gray gens b) geno /\ in_domain (GenBinary gray gens (params_of ps)) geno).
        { apply in_app_or in Hr. destruct Hr as [Hr|Hr].
          - assert (K : exists x, In x (input_population p) /\ exists geno, input_genotype (GenBinary gray gens b) x = inr geno /\ heap s1 r = new_individ (GenBinary gray gens b) geno).
            { clear - F1 Hr. induction F1; [destruct Hr|]. destruct Hr as [->|Hr]; [exists x; split; [left; auto|auto]|]. destruct (IHF1 Hr) as (x9 & Hy & K). exists x9. split; [right; auto|auto]. }
            destruct K as (x & Hx & geno & Ex & Eh). exists geno. rewrite Ei in Hr. apply in_seq in Hr.
            destruct X2 as (_ & _ & _ & _ & X2). rewrite X2 by lia. split; auto.
            rewrite Forall_forall in Hin. destruct (Hin x Hx) as (geno' & Ex' & Di). rewrite G3, Ex' in Ex. injection Ex as <-. auto.
          - rewrite Forall_forall in F2. destruct (F2 r Hr) as (geno & sa & sb & Eg' & Eh). exists geno. split; auto. eapply generated_ok; eauto. }
        destruct K as (geno & -> & Di).
        destruct (decode_usable gray gens ps geno F) as (xs & D & _); auto; [apply (proj1 Us)|]. cbn. rewrite <- Dm in D. eauto 10. }
    intros u s3 R3. apply safe_bind; [apply reset_idx_safe|intros; apply safe_ret].
  Qed.
  (** On an empty population whose parameters were reset by set_params this is the first fill. *)
  Theorem C93_first : forall p s, members p = [] -> match gspec_of p with GenBinary _ _ b => b = bparams0 | _ => True end ->
    fill_more p s = fill p s.
  Proof.
    intros p s Hm Hb. unfold fill_more, fill. rewrite Hm. destruct (gspec_of p) as [gray gens b| |] eqn:G; [|reflexivity|reflexivity].
    subst b. cbn [prepare_more prepare]. change (gen_params_loop bparams0 gens) with (get_gens_params gens).
    destruct (get_gens_params gens) as [e|b] eqn:E; [reflexivity|]. unfold bind at 1 5, lift.
    assert (Ld : leading (GenBinary gray gens b) = GenBinary gray gens b).
    { eapply (leading_repeated gray gens b b 1 b); [cbn [prepare]; rewrite E; reflexivity| |lia].
      unfold repeated. cbn [repeat concat]. rewrite !app_nil_r. do 3 (split; [reflexivity|]). split; [lia|]. apply firstn_all. }
    rewrite Ld. reflexivity.
  Qed.
  (** After [k] fills a level given as a string is divided by [k] times the number of bits. *)
  Theorem C93_level : forall t gd s m' s' gray gens b1 k b, NoDup (children gd) -> gspec_of (population gd) = GenBinary gray gens b -> repeated k b1 b ->
    mutation_execute (MutBin (LStr t)) gd s = Ok m' s' ->
    m' = MutBin (LFloat (ndiv_raw (if String.eqb t "weak" then ndiv_raw (nofZ 3) (nofZ 10) else if String.eqb t "normal" then nofZ 1 else nofZ 3)
                                  (nofZ (Z.of_nat k * last (idx_bits b1) 0)))).
  Proof.
    intros t gd s m' s' gray gens b1 k b ND G (_ & _ & _ & L & _) H. destruct (C22_bit_string_execute _ _ _ _ _ _ _ _ ND G H) as (x & -> & _ & ->). rewrite L. reflexivity.
  Qed.
  (** A population marked as sorted is not sorted again: after such a fill the next update
      takes the last new member for the best one. *)
  Theorem C93_stale : forall gd s gd' s' l b, is_multi gd = false -> is_sorted (population gd) = true -> members (population gd) = l ++ [b] ->
    update gd s = Ok gd' s' ->
    members (population gd') = l ++ [b] /\ is_sorted (population gd') = true /\ hist_best gd' = hist_best gd ++ [score (heap s b)] /\
    match best_solution gd with
    | BSingle i n => best_solution gd' = if sv_lt (score i) (score (heap s b)) then BSingle (heap s b) (idx_generation gd) else BSingle i n
    | _ => best_solution gd' = BSingle (heap s b) (idx_generation gd)
    end.
  Proof.
    intros gd s gd' s' l b M Hs Hm H. unfold update in H. rewrite M in H. apply update_single_ok in H. destruct H as [-> (l0 & b0 & md & w & K)]. cbv zeta in K.
    destruct K as (K1 & _ & _ & K4 & ->). unfold NewGenProofs.sorted_from in K1. rewrite Hs, Hm in K1. apply app_inj_tail in K1. destruct K1 as [-> ->].
    cbn [updated population members is_sorted hist_best best_solution set_sorted set_members]. do 3 (split; [reflexivity|]). unfold best_after.
    destruct (best_solution gd) as [|i n|]; [reflexivity| |destruct K4 as [K4|(? & ? & K4)]; discriminate K4]. destruct (sv_lt _ _); reflexivity.
  Qed.
End C93.

(** One gene from 0 to 7 with step 1, three bits; two individuals, filled three times. *)
Local Existing Instance Qops.
Definition C93_gens : list bgene := [(0, 7, 1)%Q].
Definition C93_pop : pop := mkPop [] false 2 (GenBinary false C93_gens bparams0) [[GNum 5%Q]].
Definition C93_state := world [] [6; 2; 1].
Example C93_example :
  observe (fun p s => (map (fun r => (genotype (heap s r), idx_individ (heap s r))) (members p), match gspec_of p with GenBinary _ _ b => (num_bits b, idx_bits b) | _ => ([], []) end))
    ((p1 <- fill_more C93_pop ;; p2 <- fill_more p1 ;; fill_more p2) C93_state) =
  Some (map (fun x => (map GBit (fst x), Some (snd x)))
        [([true; false; true], 0); ([true; true; false], 1); ([true; false; true], 2); ([false; true; false], 3); ([true; false; true], 4); ([false; false; true], 5)],
        ([3; 3; 3], [0; 3; 6; 9])).
Proof. run. Qed.
(** Objective: the gene itself, to be made small.  Filled with 5 and 4, evaluated and
    updated; filled again with 0 and 8, evaluated and updated: the best solution is still
    the 4, the best score of the second generation that of the 8. *)
Definition C93_obj : objfun := Obj1 (fun _ genes => match genes with [GInt a] => inr (OScalar (inject_Z a)) | _ => inl TypeError end).
Definition C93_fit : fitness := mkFit Hyperbola C93_obj TNone None None [] false [].
Definition C93_cat : pop := mkPop [] false 2 (GenCat [CRange 0 9 1]) [].
Example C93_best_missed :
  observe (fun gd s => (map (fun r => (genotype (heap s r), score (heap s r))) (members (population gd)),
                        match best_solution gd with BSingle i n => Some (genotype i, n) | _ => None end, hist_best gd))
    ((p1 <- fill C93_cat ;; let gd1 := gd_of p1 in fitness_execute C93_fit gd1 ;;; gd2 <- update gd1 ;;
      p2 <- fill_more (population gd2) ;; let gd3 := set_population p2 gd2 in fitness_execute C93_fit gd3 ;;; update gd3) (world [] [5; 4; 0; 8])) =
  Some ([(ints [5], q (-(5))); (ints [4], q (-(4))); (ints [0], q 0); (ints [8], q (-(8)))], Some (ints [4], 0), [q (-(4)); q (-(8))]).
Proof. run. Qed.
(** The hypotheses of C93_fill_more hold after a first fill of the binary population. *)
Example C93_filled_case : match prepare (GenBinary false C93_gens bparams0) with
  | inr g => filled_before g g
  | inl _ => False
  end.
Proof.
  destruct (prepare (GenBinary false C93_gens bparams0)) as [e|g] eqn:E; [discriminate E|]. cbn [prepare] in E.
  destruct (get_gens_params C93_gens) as [e|b] eqn:G; [discriminate E|]. injection E as <-. exists bparams0, b, 1%nat.
  split; [cbn [prepare]; rewrite G; reflexivity|]. split; [auto|]. split; [|reflexivity].
  unfold repeated. cbn [repeat concat]. rewrite !app_nil_r. do 3 (split; [reflexivity|]). split; [rewrite Z.mul_1_l; reflexivity|]. apply firstn_all.
Qed.

Print Assumptions C93_parameters.
Print Assumptions C93_decoding.
Print Assumptions C93_coding.
Print Assumptions C93_fill_more.
Print Assumptions C93_never_raises.
Print Assumptions C93_first.
Print Assumptions C93_level.
Print Assumptions C93_stale.
