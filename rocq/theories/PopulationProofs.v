(** Proofs about populations (Population.v): generation, phenotypes, numbering, fill,
    sorting. *)
From Coq Require Import String.
From Coq Require Import ZArith QArith List Bool Lia Permutation.
From Verif Require Import Spec Num State Binary Population ListLemmas BinaryProofs CodingProofs Rnd Exec Laws
  CrossoverProofs.
Import ListNotations.
Open Scope list_scope.
Open Scope Z_scope.

Lemma py_range_spec : forall a b stp z, stp <> 0 ->
  In z (py_range a (b + 1) stp) <->
  exists i, 0 <= i /\ z = a + i * stp /\ (0 < stp /\ z <= b \/ stp < 0 /\ b + 1 < z).
Proof.
  intros a b stp z Hs. rewrite in_py_range. unfold range_len.
  destruct (0 <? stp) eqn:E; [apply Z.ltb_lt in E|apply Z.ltb_ge in E].
  - destruct (a <? b + 1) eqn:E1; [apply Z.ltb_lt in E1|apply Z.ltb_ge in E1].
    + split; intros (i & Hi & Hz).
      * exists i. split; [lia|]. split; auto. left. split; auto. subst z.
        pose proof (Z.mul_div_le (b + 1 - a - 1) stp ltac:(lia)). nia.
      * destruct Hz as [-> [[_ Hz]|[Hz _]]]; [|lia]. exists i. split; auto.
        assert (i <= (b + 1 - a - 1) / stp) by (apply Z.div_le_lower_bound; lia). lia.
    + split; intros (i & Hi & Hz); [lia|]. destruct Hz as [-> [[_ Hz]|[Hz _]]]; nia.
  - destruct (b + 1 <? a) eqn:E1; [apply Z.ltb_lt in E1|apply Z.ltb_ge in E1].
    + split; intros (i & Hi & Hz).
      * exists i. split; [lia|]. split; auto. right. split; [lia|]. subst z.
        pose proof (Z.mul_div_le (a - (b + 1) - 1) (- stp) ltac:(lia)). nia.
      * destruct Hz as [-> [[Hz _]|[_ Hz]]]; [lia|]. exists i. split; auto.
        assert (i <= (a - (b + 1) - 1) / (- stp)) by (apply Z.div_le_lower_bound; lia). lia.
    + split; intros (i & Hi & Hz); [lia|]. destruct Hz as [-> [[Hz _]|[_ Hz]]]; nia.
Qed.
Lemma range_len_pos : forall a b stp, stp <> 0 -> (0 < range_len a b stp <-> (if 0 <? stp then a < b else b < a)).
Proof.
  intros a b stp Hs. unfold range_len. destruct (0 <? stp) eqn:E; [apply Z.ltb_lt in E|apply Z.ltb_ge in E].
  - destruct (a <? b) eqn:E1; [apply Z.ltb_lt in E1|apply Z.ltb_ge in E1]; [|lia].
    pose proof (Z.div_pos (b - a - 1) stp). lia.
  - destruct (b <? a) eqn:E1; [apply Z.ltb_lt in E1|apply Z.ltb_ge in E1]; [|lia].
    pose proof (Z.div_pos (a - b - 1) (- stp)). lia.
Qed.

Section PopulationProofs.
  Context {NO : NumOps}.

  (** *** The declared gene domains *)
  Definition gene_in (p : cgen) (x : gv) : Prop :=
    match p with
    | CList l => In x l
    | CRange a b stp => exists z i, x = GInt z /\ 0 <= i /\ z = a + i * stp /\
                          (0 < stp /\ z <= b \/ stp < 0 /\ b + 1 < z)
    | COther => False
    end.
  (** A pool from which a value can be drawn. *)
  Definition pool_usable (p : cgen) : Prop :=
    match p with
    | CList l => l <> []
    | CRange a b stp => (0 < stp /\ a <= b) \/ (stp < 0 /\ b + 1 < a)
    | COther => False
    end.
  Definition in_domain (g : gspec) (geno : list gv) : Prop :=
    match g with
    | GenBinary _ _ bp => exists bs, geno = map GBit bs /\ Z.of_nat (length bs) = zsum (num_bits bp)
    | GenCat gens => Forall2 gene_in gens geno
    | GenOrd a b k => exists zs, geno = map GInt zs /\ Z.of_nat (length zs) = k /\ NoDup zs /\
                        Forall (fun z => a <= z <= b) zs
    end.
  (** The specification can produce individuals. *)
  Definition spec_usable (g : gspec) : Prop :=
    match g with
    | GenBinary _ gens bp => Forall (fun n => 1 <= n) (num_bits bp) /\
                          real_num_points bp = map (fun n => 2 ^ n - 1) (num_bits bp)
    | GenCat gens => Forall pool_usable gens
    | GenOrd a b k => 0 <= k <= Z.max 0 (b - a + 1)
    end.

  Lemma gen_cat1_possible : forall p, pool_usable p -> possible (gen_cat1 p) (gene_in p).
  Proof.
    intros [a b stp|l|] H; cbn [gen_cat1 pool_usable gene_in] in *; [| |destruct H].
    - assert (Hs : stp <> 0) by lia. eapply possible_iff.
      + apply possible_bind; [apply possible_randrange; auto|intros; apply possible_ret].
        apply range_len_pos; auto. destruct (0 <? stp) eqn:E; [apply Z.ltb_lt in E|apply Z.ltb_ge in E]; lia.
      + intros x. split.
        * intros (z & Hz & ->). apply py_range_spec in Hz; auto. destruct Hz as (i & Hz). exists z, i. tauto.
        * intros (z & i & -> & Hz). exists z. split; auto. apply py_range_spec; auto. exists i. auto.
    - apply possible_choice. auto.
  Qed.

  Lemma zsum_app : forall a b, zsum (a ++ b) = zsum a + zsum b.
  Proof. induction a; intros; simpl; rewrite ?IHa; lia. Qed.
  Lemma gen_binary_possible : forall gray ns, Forall (fun n => 1 <= n) ns ->
    possible (gen_binary_loop gray (combine (map (fun n => 2 ^ n - 1) ns) ns))
             (fun bs => Z.of_nat (length bs) = zsum ns).
  Proof.
    intros gray ns H. induction H as [|n ns Hn H IH]; cbn [map combine gen_binary_loop].
    - eapply possible_iff; [apply possible_ret|]. intros bs. split; [intros ->; reflexivity|].
      intros E. destruct bs; [auto|cbn in E; lia].
    - assert (P : 2 ^ 1 <= 2 ^ n) by (apply Z.pow_le_mono_r; lia).
      eapply possible_iff.
      + apply (possible_bind _ _ (fun v => 0 <= v <= 2 ^ n - 1) (fun v bs => exists b1, pop_index_to_binary gray v n = inr b1 /\
                 exists b2, Z.of_nat (length b2) = zsum ns /\ bs = b1 ++ b2)).
        * apply possible_randint. lia.
        * intros v Hv. cbv beta in Hv. destruct (code_ok gray v n Hn ltac:(lia)) as (b1 & E & L & _). rewrite E.
          eapply possible_iff.
          -- apply (possible_bind _ _ (fun b => b = b1) (fun b bs => exists b2, Z.of_nat (length b2) = zsum ns /\ bs = b ++ b2)).
             ++ unfold lift. apply possible_ret.
             ++ intros b ->. eapply possible_iff; [apply possible_bind; [exact IH|intros; apply possible_ret]|].
                intros bs. reflexivity.
          -- intros bs. split; [intros (b & -> & K)|intros (b & K & K')]; eauto. inversion K; subst. eauto.
      + intros bs. cbn [zsum]. split.
        * intros (v & Hv & b1 & E & b2 & L2 & ->). destruct (code_ok gray v n Hn ltac:(lia)) as (b1' & E' & L & _).
          rewrite E in E'. inversion E'; subst. rewrite app_length. lia.
        * intros L. assert (Z0 : 0 <= zsum ns) by (clear - H; induction H; cbn [zsum]; lia).
          assert (L1 : Z.of_nat (length (firstn (Z.to_nat n) bs)) = n) by (rewrite firstn_length; lia).
          destruct (code_surj gray n _ Hn L1) as (v & Hv & E). exists v. split; [lia|].
          exists (firstn (Z.to_nat n) bs). split; auto. exists (skipn (Z.to_nat n) bs).
          split; [rewrite skipn_length; lia|]. symmetry. apply firstn_skipn.
  Qed.

  Lemma generated_possible : forall g, spec_usable g -> possible (get_generated_individ g) (in_domain g).
  Proof.
    intros [gray gens bp|gens|a b k] H; cbn [get_generated_individ spec_usable in_domain] in *.
    - destruct H as [H ->]. eapply possible_iff.
      + apply possible_bind; [apply gen_binary_possible; auto|intros; apply possible_ret].
      + intros geno. split; [intros (bs & L & ->)|intros (bs & -> & L)]; exists bs; split; auto.
    - rewrite Forall_forall in H. apply possible_mmap. intros p Hp. apply gen_cat1_possible. auto.
    - eapply possible_iff.
      + apply possible_bind; [apply possible_sample; rewrite zrange_length_Z; lia|intros; apply possible_ret].
      + intros geno. split.
        * intros (zs & Hz & ->). apply picks_nodup_iff in Hz; [|apply zrange_nodup]. destruct Hz as (L & N & I).
          exists zs. split; auto. split; [lia|]. split; auto. apply Forall_forall. intros z Hz. apply I, in_zrange in Hz. lia.
        * intros (zs & -> & L & N & F). exists zs. split; auto. apply picks_nodup_iff; [apply zrange_nodup|].
          split; [lia|]. split; auto. intros z Hz. rewrite Forall_forall in F. apply F in Hz. apply in_zrange. lia.
  Qed.
  (** Every successful generation (binary parameters assumed consistent). *)
  Definition binary_ok (g : gspec) : Prop := match g with GenBinary _ _ _ => spec_usable g | _ => True end.
  Lemma generated_ok : forall g s geno s', binary_ok g -> get_generated_individ g s = Ok geno s' -> in_domain g geno.
  Proof.
    intros g s geno s' B H. destruct g as [gray gens bp|gens|a b k].
    - apply (possible_sound _ _ _ _ _ (generated_possible (GenBinary gray gens bp) B)) in H. tauto.
    - cbn [get_generated_individ in_domain] in *. revert s geno H. induction gens as [|p gens IH]; intros s geno H; cbn [mmap] in H.
      + apply ret_ok in H. destruct H as [-> _]. constructor.
      + bd H x s1 R1. bd H xs s2 R2. apply ret_ok in H. destruct H as [-> ->]. constructor; [|eapply IH; eauto].
        destruct p as [a b stp|l|]; cbn [gen_cat1 gene_in] in *; [| |discriminate].
        * bd R1 z s3 R3. apply ret_ok in R1. destruct R1 as [-> ->]. unfold randrange in R3.
          destruct (stp =? 0) eqn:E0; [discriminate|]. apply Z.eqb_neq in E0.
          destruct (range_len a (b + 1) stp <=? 0) eqn:E1; [discriminate|]. apply Z.leb_gt in E1.
          bd R3 k s4 R4. apply ret_ok in R3. destruct R3 as [-> ->].
          apply (possible_sound _ _ _ _ _ (possible_draw _ E1)) in R4. destruct R4 as [Hk _].
          assert (I : In (a + k * stp) (py_range a (b + 1) stp)) by (apply in_py_range; exists k; auto).
          apply py_range_spec in I; auto. destruct I as (i & I). exists (a + k * stp), i. tauto.
        * destruct l as [|d l]; [discriminate|].
          apply (possible_sound _ _ _ _ _ (possible_choice (d :: l) ltac:(discriminate))) in R1. tauto.
    - destruct (Z_le_dec 0 k) as [K1|K1]; [destruct (Z_le_dec k (Z.max 0 (b - a + 1))) as [K2|K2]|].
      + apply (possible_sound _ _ _ _ _ (generated_possible (GenOrd a b k) (conj K1 K2))) in H. tauto.
      + exfalso. cbn [get_generated_individ] in H. bd H zs s1 R1. rewrite sample_error in R1; [discriminate|].
        right. rewrite zrange_length_Z. lia.
      + exfalso. cbn [get_generated_individ] in H. bd H zs s1 R1. rewrite sample_error in R1; [discriminate|]. lia.
  Qed.
  Lemma rnd_only_generated : forall g, rnd_only (get_generated_individ g).
  Proof.
    intros [gray gens bp|gens|a b k]; cbn [get_generated_individ].
    - apply rnd_only_bind; auto with rnd. generalize (combine (real_num_points bp) (num_bits bp)) as ps.
      induction ps as [|[r n] ps IH]; cbn [gen_binary_loop]; auto with rnd.
      apply rnd_only_bind; auto with rnd. intros v. apply rnd_only_bind; auto with rnd. intros bs.
      apply rnd_only_bind; auto with rnd.
    - apply rnd_only_mmap. intros [a b stp|l|]; cbn [gen_cat1]; auto with rnd. apply rnd_only_bind; auto with rnd.
      unfold randrange. destruct (stp =? 0); auto with rnd. destruct (_ <=? _); auto with rnd.
      apply rnd_only_bind; auto with rnd.
    - apply rnd_only_bind; auto with rnd.
  Qed.

  (** *** Binary parameters *)
  Lemma zsum_fold : forall l a, fold_left Z.add l a = a + zsum l.
  Proof. induction l; simpl; intros; [lia|]. rewrite IHl. lia. Qed.
  Lemma gene_params_bits : forall g n stp, neqb (nofZ 0) nzero = true -> gene_params g = inr (n, stp) -> 1 <= n.
  Proof.
    intros g n stp Z0 H. unfold gene_params in H. destruct (py_div _ _) as [e|q]; [discriminate|].
    destruct (ntrunc q) as [k|]; [|discriminate]. destruct (real_number_spec k) as (m & E & Hm & _). rewrite E in H.
    destruct (py_div _ (nofZ (2 ^ m - 1))) as [e|stp'] eqn:D; [discriminate|]. inversion H; subst.
    destruct (Z.eq_dec n 0) as [->|]; [|lia]. unfold py_div in D. change (2 ^ 0 - 1) with 0 in D. rewrite Z0 in D. discriminate.
  Qed.
  (** After get_gens_params the specification is usable. *)
  Lemma prepared_usable : forall gray gens bp0 g, neqb (nofZ 0) nzero = true ->
    prepare (GenBinary gray gens bp0) = inr g ->
    exists bp, g = GenBinary gray gens bp /\ spec_usable g /\
      (exists ps, bp = params_of ps /\ Forall2 (fun g p => gene_params g = inr p) gens ps).
  Proof.
    intros gray gens bp0 g Z0 H. cbn [prepare] in H. destruct (get_gens_params gens) as [e|bp] eqn:E; [discriminate|].
    inversion H; subst. exists bp. split; auto. destruct (get_gens_params_inv _ _ E) as (ps & F & ->).
    split; [|eauto]. split; unfold params_of; cbn [num_bits real_num_points].
    - clear - F Z0. induction F as [|g [n stp] gens ps Hg F IH]; cbn [map fst]; constructor; auto.
      eapply gene_params_bits; eauto.
    - rewrite map_map. reflexivity.
  Qed.
  Lemma decode_usable : forall gray gens ps geno, Forall2 (fun g p => gene_params g = inr p) gens ps ->
    Forall (fun n => 1 <= n) (map fst ps) -> in_domain (GenBinary gray gens (params_of ps)) geno ->
    exists xs, decode_genotype gray gens (params_of ps) geno = inr (map GNum xs) /\ length xs = length gens.
  Proof.
    intros gray gens ps geno F Hn (bs & -> & L). cbn [num_bits params_of] in L.
    unfold decode_genotype. change (map GBit bs) with (bits_to_geno bs). rewrite geno_bits_id.
    unfold binary_individ_to_float, params_of. cbn [real_step idx_bits].
    destruct (split_chunks (map fst ps) bs) as (cs & E & Fc).
    { eapply Forall_impl; [|exact Hn]. simpl; lia. } { rewrite zsum_fold. lia. }
    pose proof (decode_loop_chunks gray gens (map snd ps) (map fst ps) cs [] []) as D.
    rewrite app_nil_r in D. cbn [app length] in D. change (Z.of_nat 0) with 0 in D. rewrite <- E in D.
    rewrite D; auto; try (rewrite !map_length; auto); [|apply Forall2_length in F; auto].
    clear - F Fc Hn. revert cs Fc. induction F as [|g [n stp] gens ps Hg F IH]; intros cs Fc; cbn [map fst snd] in *.
    - inversion Fc; subst. exists []. auto.
    - inversion Fc as [|? c ? cs' Hc Fc']; subst. inversion Hn; subst. cbn [decode_chunks].
      destruct (code_surj gray _ c H1 eq_refl) as (i & Hi & Ei).
      destruct (code_ok gray i _ H1 Hi) as (c' & E' & _ & Dg). rewrite Ei in E'. inversion E'; subst.
      rewrite Dg. destruct (IH H2 cs' Fc') as (xs & Ex & Lx).
      destruct (decode_chunks gray gens (map snd ps) cs') as [e|ys]; [discriminate|].
      exists (nadd (glo g) (nmul (nofZ i) stp) :: ys). split; [reflexivity|]. cbn [length].
      inversion Ex as [K]. assert (length (map GNum ys) = length (map GNum xs)) by congruence. rewrite !map_length in H. lia.
  Qed.
  Lemma prepare_again : forall g g', prepare g = inr g' -> prepare g' = inr g'.
  Proof.
    intros [gray gens bp|gens|a b k] g' H; cbn [prepare] in *; try (inversion H; reflexivity).
    destruct (get_gens_params gens) eqn:E; inversion H; subst. cbn [prepare]. rewrite E. reflexivity.
  Qed.

  (** *** get_phenotype *)
  Definition same_but_phenotype (g : gspec) (i j : individ) : Prop :=
    j = i \/ (phenotype i = Some None /\ exists gray gens bp ph, g = GenBinary gray gens bp /\
      decode_genotype gray gens bp (genotype i) = inr ph /\ j = set_phenotype (Some (Some ph)) i).
  Lemma get_phenotype1_ok : forall g r s u s', get_phenotype1 g r s = Ok u s' ->
    next s' = next s /\ log s' = log s /\ rnd_seed s' = rnd_seed s /\ prng s' = prng s /\ tape s' = tape s /\ ent s' = ent s /\
    (forall r', r' <> r -> heap s' r' = heap s r') /\ same_but_phenotype g (heap s r) (heap s' r) /\
    (exists ph, phenotype (heap s' r) = Some (Some ph)).
  Proof.
    intros g r s u s' H. unfold get_phenotype1 in H. bd H i s0 R0. apply get_ok in R0. destruct R0 as [-> ->].
    destruct (phenotype (heap s r)) as [[ph|]|] eqn:E; [| |discriminate].
    - apply ret_ok in H. destruct H as [_ ->]. repeat split; auto; [left; auto|eauto].
    - destruct g as [gray gens bp| |]; try discriminate. bd H ph s1 R1. apply lift_ok in R1. destruct R1 as [D ->].
      apply modify_ok in H. subst s'. cbn [heap set_heap next log rnd_seed prng tape ent]. repeat split; auto.
      + intros r' Hr. unfold upd. apply Nat.eqb_neq in Hr. rewrite Hr. auto.
      + right. split; auto. exists gray, gens, bp, ph. unfold upd. rewrite Nat.eqb_refl. auto.
      + unfold upd. rewrite Nat.eqb_refl. eexists. reflexivity.
  Qed.
  Lemma get_phenotype_ok : forall g l s u s', get_phenotype g l s = Ok u s' ->
    next s' = next s /\ log s' = log s /\ rnd_seed s' = rnd_seed s /\ prng s' = prng s /\ tape s' = tape s /\ ent s' = ent s /\
    (forall r, ~ In r l -> heap s' r = heap s r) /\
    (forall r, same_but_phenotype g (heap s r) (heap s' r)) /\
    (forall r, In r l -> exists ph, phenotype (heap s' r) = Some (Some ph)).
  Proof.
    intros g l. unfold get_phenotype. induction l as [|c l IH]; intros s u s' H; cbn [miter] in H.
    - apply ret_ok in H. destruct H as [_ ->]. repeat split; auto; [left; auto|intros r []].
    - bd H v s1 R1. apply get_phenotype1_ok in R1. destruct R1 as (N & L & S1 & S2 & T & En & Hne & Hc & Hp).
      apply IH in H. destruct H as (N' & L' & S1' & S2' & T' & En' & Hni & Hs & Hq).
      split; [congruence|]. split; [congruence|]. split; [congruence|]. split; [congruence|]. split; [congruence|]. split; [congruence|].
      split; [|split].
      + intros r Hr. rewrite Hni, Hne; auto; intros C; apply Hr; [left; auto|right; auto].
      + intros r. destruct (Nat.eq_dec r c) as [->|Hrc].
        * destruct Hp as [ph Hp]. destruct (Hs c) as [E|(E & _)]; [rewrite E; auto|congruence].
        * rewrite <- (Hne r Hrc). apply Hs.
      + intros r [->|Hr]; auto. destruct (in_dec Nat.eq_dec r l) as [I|I]; [auto|]. rewrite Hni; auto.
  Qed.
  Lemma get_phenotype_safe : forall g l s,
    (forall r, In r l -> match phenotype (heap s r) with
       | None => False
       | Some (Some _) => True
       | Some None => exists gray gens bp ph, g = GenBinary gray gens bp /\ decode_genotype gray gens bp (genotype (heap s r)) = inr ph
       end) -> safe (get_phenotype g l) s.
  Proof.
    intros g l. unfold get_phenotype. induction l as [|c l IH]; intros s H; cbn [miter]; [apply safe_ret|].
    apply safe_bind.
    - unfold get_phenotype1. apply safe_bind; [apply safe_get|]. intros i s1 R1. apply get_ok in R1. destruct R1 as [-> ->].
      specialize (H c (or_introl eq_refl)). destruct (phenotype (heap s c)) as [[ph|]|]; [apply safe_ret| |destruct H].
      destruct H as (gray & gens & bp & ph & -> & D). apply safe_bind; [eapply safe_lift; eauto|]. intros; apply safe_modify.
    - intros u s1 R1. apply get_phenotype1_ok in R1. destruct R1 as (N & L & S1 & S2 & T & En & Hne & Hc & Hp). apply IH.
      intros r Hr. destruct (Nat.eq_dec r c) as [->|Hrc].
      + destruct Hp as [ph ->]. exact I.
      + rewrite (Hne r Hrc). apply H. right; auto.
  Qed.

  (** *** reset_idx_individ *)
  (** The numbering written by the loop: the last position counts. *)
  Fixpoint last_pos (i : Z) (l : list nat) (r : nat) : option Z :=
    match l with
    | [] => None
    | c :: l' => match last_pos (i + 1) l' r with
                 | Some j => Some j
                 | None => if Nat.eqb r c then Some i else None
                 end
    end.
  Lemma last_pos_in : forall l i r, last_pos i l r <> None <-> In r l.
  Proof.
    induction l as [|c l IH]; intros i r; simpl; [tauto|]. specialize (IH (i + 1) r).
    destruct (last_pos (i + 1) l r) eqn:E.
    - split; intros; [right; apply IH; congruence|congruence].
    - destruct (Nat.eqb_spec r c) as [->|N]; split; intros H; try congruence; auto.
      destruct H as [->|H]; [congruence|]. apply IH in H. congruence.
  Qed.
  Lemma last_pos_nth : forall l i r j, last_pos i l r = Some j ->
    i <= j < i + Z.of_nat (length l) /\ nth_error l (Z.to_nat (j - i)) = Some r.
  Proof.
    induction l as [|c l IH]; intros i r j H; simpl in H; [discriminate|].
    destruct (last_pos (i + 1) l r) as [j'|] eqn:E.
    - inversion H; subst. apply IH in E. destruct E as [E1 E2]. cbn [length]. split; [lia|].
      replace (Z.to_nat (j - i)) with (S (Z.to_nat (j - (i + 1)))) by lia. exact E2.
    - destruct (Nat.eqb_spec r c) as [->|N]; [|discriminate]. inversion H; subst. cbn [length]. split; [lia|].
      replace (Z.to_nat (j - j)) with O by lia. reflexivity.
  Qed.
  Lemma last_pos_inj : forall l i r r' j, last_pos i l r = Some j -> last_pos i l r' = Some j -> r = r'.
  Proof. intros. apply last_pos_nth in H, H0. destruct H, H0. congruence. Qed.
  Lemma last_pos_nodup : forall l i r k, NoDup l -> nth_error l k = Some r -> last_pos i l r = Some (i + Z.of_nat k).
  Proof.
    induction l as [|c l IH]; intros i r k N H; [destruct k; discriminate|]. inversion N; subst. destruct k; simpl in *.
    - inversion H; subst. destruct (last_pos (i + 1) l r) eqn:E.
      + exfalso. apply H2. apply (last_pos_in l (i + 1)). congruence.
      + rewrite Nat.eqb_refl. f_equal. lia.
    - rewrite (IH (i + 1) r k); auto. f_equal. lia.
  Qed.
  Lemma reset_idx_ok : forall l i s u s', reset_idx_loop i l s = Ok u s' ->
    next s' = next s /\ log s' = log s /\ rnd_seed s' = rnd_seed s /\ prng s' = prng s /\ tape s' = tape s /\ ent s' = ent s /\
    forall r, heap s' r = match last_pos i l r with None => heap s r | Some j => set_idx (Some j) (heap s r) end.
  Proof.
    induction l as [|c l IH]; intros i s u s' H; cbn [reset_idx_loop] in H.
    - apply ret_ok in H. destruct H as [_ ->]. repeat split; auto.
    - bd H v s1 R1. apply modify_ok in R1. apply IH in H. destruct H as (N & L & S1 & S2 & T & En & Hh). subst s1.
      repeat split; auto. intros r. rewrite Hh. cbn [last_pos heap set_heap]. unfold upd.
      destruct (last_pos (i + 1) l r); destruct (Nat.eqb_spec r c) as [->|]; auto.
  Qed.
  Lemma reset_idx_safe : forall l i s, safe (reset_idx_loop i l) s.
  Proof.
    induction l as [|c l IH]; intros i s; cbn [reset_idx_loop]; [apply safe_ret|].
    apply safe_bind; [apply safe_modify|intros; apply IH].
  Qed.

  (** *** fill *)
  Lemma set_params_inv : forall n g inp p, set_params n g inp = inr p ->
    Z.of_nat (length inp) <= Z.max 0 n /\ p = mkPop [] false n g inp.
  Proof.
    intros n g inp p H. unfold set_params in H. destruct inp as [|x inp]; [inversion H; subst; split; auto; cbn; lia|].
    cbn [length Nat.eqb negb andb] in H. destruct (n <? _) eqn:E in H; [discriminate|]. apply Z.ltb_ge in E. inversion H. split; auto. cbn [length]. lia.
  Qed.
  Lemma set_params_fits : forall n g (inp : list (list gv)), Z.of_nat (length inp) <= Z.max 0 n -> set_params n g inp = inr (mkPop [] false n g inp).
  Proof.
    intros n g inp H. unfold set_params. destruct inp as [|x inp]; auto. cbn [length Nat.eqb negb andb] in *.
    replace (_ <? _) with false; auto. symmetry. apply Z.ltb_ge. lia.
  Qed.

  (** Individuals made by add_dict. *)
  Lemma input_loop_ok : forall g l s rs s',
    mmap (fun x => geno <- lift (input_genotype g x) ;; alloc (new_individ g geno)) l s = Ok rs s' ->
    rs = seq (next s) (length l) /\ next s' = (next s + length l)%nat /\ extends s s' /\
    Forall2 (fun x r => exists geno, input_genotype g x = inr geno /\ heap s' r = new_individ g geno) l rs.
  Proof.
    intros g l. induction l as [|x l IH]; intros s rs s' H; cbn [mmap] in H.
    - apply ret_ok in H. destruct H as [-> ->]. repeat split; auto; cbn; lia.
    - bd H r s1 R1. bd H rs' s2 R2. apply ret_ok in H. destruct H as [-> ->].
      bd R1 geno s3 R3. apply lift_ok in R3. destruct R3 as [E ->].
      pose proof (extends_alloc _ _ _ _ R1) as X1. apply frame_alloc in R1. destruct R1 as (_ & -> & Hh & Hn & _).
      apply IH in R2. destruct R2 as (-> & N & X & F). cbn [length seq]. rewrite Hn in *.
      split; auto. split; [lia|]. split; [eapply extends_trans; eauto|]. constructor; auto.
      exists geno. split; auto. destruct X as (_ & _ & _ & _ & Xh). rewrite Xh by lia. exact Hh.
  Qed.
  Lemma generate_loop_ok : forall g k s rs s',
    mrepeat k (geno <- get_generated_individ g ;; alloc (new_individ g geno)) s = Ok rs s' ->
    rs = seq (next s) k /\ next s' = (next s + k)%nat /\ extends s s' /\
    Forall (fun r => exists geno s1 s2, get_generated_individ g s1 = Ok geno s2 /\ heap s' r = new_individ g geno) rs.
  Proof.
    intros g k. induction k as [|k IH]; intros s rs s' H; cbn [mrepeat] in H.
    - apply ret_ok in H. destruct H as [-> ->]. repeat split; auto.
    - bd H r s1 R1. bd H rs' s2 R2. apply ret_ok in H. destruct H as [-> ->]. bd R1 geno s3 R3.
      pose proof (extends_rnd _ _ _ _ (rnd_only_generated g) R3) as X0.
      pose proof (frame_heap_rnd _ _ _ _ (rnd_only_generated g) R3) as (_ & N0 & _).
      pose proof (extends_alloc _ _ _ _ R1) as X1. apply frame_alloc in R1. destruct R1 as (_ & -> & Hh & Hn & _).
      apply IH in R2. destruct R2 as (-> & N & X & F). cbn [seq]. rewrite Hn, N0 in *.
      split; auto. split; [lia|]. split; [eapply extends_trans; [exact X0|eapply extends_trans; eauto]|]. constructor; auto.
      exists geno, s, s3. split; auto. destruct X as (_ & _ & _ & _ & Xh). rewrite Xh by lia. exact Hh.
  Qed.

  (** The state after fill. *)
  Lemma fill_ok : forall p s p' s', fill p s = Ok p' s' ->
    exists g, prepare (gspec_of p) = inr g /\
    let inp := input_population p in
    let k := Z.to_nat (num_individ p - Z.of_nat (length inp)) in
    p' = set_members (seq (next s) (length inp + k)) (set_gspec g p) /\
    next s' = (next s + (length inp + k))%nat /\ extends s s' /\
    forall i r, nth_error (members p') i = Some r ->
      exists geno, genotype (heap s' r) = geno /\ score (heap s' r) = SVNone /\ obj_score (heap s' r) = SVNone /\
        feasible (heap s' r) = true /\ rank (heap s' r) = None /\ idx_individ (heap s' r) = Some (Z.of_nat i) /\
        match g with
        | GenBinary gray gens bp => exists ph, phenotype (heap s' r) = Some (Some ph) /\ decode_genotype gray gens bp geno = inr ph
        | _ => phenotype (heap s' r) = None
        end /\
        match nth_error inp i with
        | Some x => input_genotype g x = inr geno
        | None => exists s1 s2, get_generated_individ g s1 = Ok geno s2
        end.
  Proof.
    intros p s p' s' H. unfold fill in H. bd H g s0 R0. apply lift_ok in R0. destruct R0 as [Hg ->].
    bd H inp s1 R1. bd H gn s2 R2. bd H u s3 R3. bd H v s4 R4. apply ret_ok in H. destruct H as [-> ->].
    apply input_loop_ok in R1. destruct R1 as (Ei & N1 & X1 & F1).
    apply generate_loop_ok in R2. destruct R2 as (Eg & N2 & X2 & F2).
    exists g. split; auto. cbv zeta. set (k := Z.to_nat (num_individ p - Z.of_nat (length (input_population p)))) in *.
    assert (El : inp ++ gn = seq (next s) (length (input_population p) + k)).
    { rewrite Ei, Eg, N1. rewrite seq_app. reflexivity. }
    rewrite El in *. split; auto.
    set (l := seq (next s) (length (input_population p) + k)) in *.
    assert (P3 : next s3 = next s2 /\ log s3 = log s2 /\ rnd_seed s3 = rnd_seed s2 /\ prng s3 = prng s2 /\
      (forall r, ~ In r l -> heap s3 r = heap s2 r) /\
      (forall r, same_but_phenotype g (heap s2 r) (heap s3 r)) /\
      (forall r, In r l -> is_phenotype g = true -> exists ph, phenotype (heap s3 r) = Some (Some ph))).
    { destruct (is_phenotype g).
      - apply get_phenotype_ok in R3. destruct R3 as (A1 & A2 & A3 & A4 & _ & _ & A5 & A6 & A7). repeat split; auto.
      - apply ret_ok in R3. destruct R3 as [_ ->]. repeat split; auto; [left; auto|discriminate]. }
    destruct P3 as (N3 & L3 & S3 & Q3 & Hni3 & Hs3 & Hp3).
    unfold reset_idx_individ in R4. apply reset_idx_ok in R4. destruct R4 as (N4 & L4 & S4 & Q4 & _ & _ & Hh4).
    split; [lia|].
    assert (Hold : forall r, (r < next s)%nat -> ~ In r l) by (intros r Hr C; apply in_seq in C; lia).
    split.
    { pose proof (extends_trans _ _ _ X1 X2) as (X3 & X4 & X5 & X6 & X7). split; [lia|]. split; [congruence|].
      split; [congruence|]. split; [congruence|]. intros r Hr. rewrite Hh4.
      assert (Hl : last_pos 0 l r = None).
      { destruct (last_pos 0 l r) eqn:E; auto. exfalso. apply (Hold r Hr). apply (last_pos_in l 0). congruence. }
      rewrite Hl, (Hni3 r (Hold r Hr)). apply X7. auto. }
    intros i r Hi. cbn [members set_members] in Hi.
    assert (Il : In r l) by (eapply nth_error_In; eauto).
    assert (Hli : (i < length (input_population p) + k)%nat).
    { assert (i < length l)%nat by (apply nth_error_Some; congruence). unfold l in H. rewrite seq_length in H. auto. }
    assert (E4 : heap s4 r = set_idx (Some (Z.of_nat i)) (heap s3 r)).
    { rewrite Hh4. rewrite (last_pos_nodup l 0 r i); auto. apply seq_NoDup. }
    (* what the individual was when it was added *)
    assert (E2 : exists geno, heap s2 r = new_individ g geno /\
       match nth_error (input_population p) i with
       | Some x => input_genotype g x = inr geno
       | None => exists s1 s2, get_generated_individ g s1 = Ok geno s2
       end).
    { destruct (lt_dec i (length (input_population p))) as [Hlt|Hge].
      - destruct (nth_error (input_population p) i) as [x|] eqn:Ex; [|apply nth_error_None in Ex; lia].
        assert (Hr : nth_error inp i = Some r).
        { rewrite <- Hi. unfold l. rewrite Ei. rewrite !seq_app. rewrite nth_error_app1; [|rewrite seq_length; lia]. reflexivity. }
        assert (K : forall (P : list gv -> nat -> Prop) a b, Forall2 P a b -> forall i x r, nth_error a i = Some x -> nth_error b i = Some r -> P x r).
        { clear. induction 1; intros [|i] x0 r Ha Hb; simpl in *; try discriminate; [inversion Ha; inversion Hb; subst; auto|eauto]. }
        destruct (K _ _ _ F1 i x r Ex Hr) as (geno & E & Eh). exists geno. split; auto.
        destruct X2 as (_ & _ & _ & _ & X2). rewrite X2; auto. rewrite Ei in Hr. apply nth_error_In, in_seq in Hr. lia.
      - assert (Ex : nth_error (input_population p) i = None) by (apply nth_error_None; lia). rewrite Ex.
        assert (Hr : In r gn).
        { rewrite Eg, N1. unfold l in Hi. rewrite seq_app in Hi. rewrite nth_error_app2 in Hi; [|rewrite seq_length; lia].
          eapply nth_error_In; eauto. }
        rewrite Forall_forall in F2. destruct (F2 r Hr) as (geno & sa & sb & Eg' & Eh). exists geno. eauto. }
    destruct E2 as (geno & E2 & Hin). exists geno. rewrite E4.
    destruct (Hs3 r) as [E3|(Ph & gray & gens & bp & ph & -> & D & E3)].
    - rewrite E3, E2. cbn. do 6 (split; [reflexivity|]). split; [|exact Hin].
      destruct g as [gray gens bp| |]; try reflexivity. exfalso.
      destruct (Hp3 r Il eq_refl) as [ph Ph]. rewrite E3, E2 in Ph. discriminate.
    - rewrite E3, E2 in *. cbn. do 6 (split; [reflexivity|]). split; [|exact Hin]. eauto.
  Qed.
  Lemma fill_safe : forall p s g, prepare (gspec_of p) = inr g -> spec_usable g ->
    (forall gray gens bp, g = GenBinary gray gens bp -> exists ps, bp = params_of ps /\ Forall2 (fun g p => gene_params g = inr p) gens ps) ->
    Forall (fun x => exists geno, input_genotype g x = inr geno /\ (is_phenotype g = true -> in_domain g geno)) (input_population p) ->
    safe (fill p) s.
  Proof.
    intros p s g Hg U Hps Hin. unfold fill. apply safe_bind; [eapply safe_lift; eauto|].
    intros g' s0 R0. apply lift_ok in R0. destruct R0 as [E ->]. rewrite Hg in E. inversion E; subst g'. clear E.
    apply safe_bind.
    { apply safe_mmap with (P := fun _ _ => True); auto. intros d x rest s1 El _.
      rewrite Forall_forall in Hin. destruct (Hin x) as (geno & Ex & _); [rewrite El; apply in_or_app; right; left; auto|].
      apply safe_bind; [eapply safe_lift; eauto|intros; apply safe_alloc]. }
    intros inp s1 R1. apply safe_bind.
    { apply safe_mrepeat with (P := fun _ => True); auto. intros s2 _.
      apply safe_bind; [eapply safe_possible, generated_possible; auto|intros; apply safe_alloc]. }
    intros gn s2 R2. apply safe_bind.
    { destruct (is_phenotype g) eqn:Ph; [|apply safe_ret]. apply get_phenotype_safe. intros r Hr.
      apply input_loop_ok in R1. destruct R1 as (Ei & N1 & X1 & F1).
      apply generate_loop_ok in R2. destruct R2 as (Eg & N2 & X2 & F2).
      assert (K : exists geno, heap s2 r = new_individ g geno /\ in_domain g geno).
      { apply in_app_or in Hr. destruct Hr as [Hr|Hr].
        - assert (K : exists x, In x (input_population p) /\ exists geno, input_genotype g x = inr geno /\ heap s1 r = new_individ g geno).
          { clear - F1 Hr. induction F1; [destruct Hr|]. destruct Hr as [->|Hr]; [exists x; split; [left; auto|auto]|]. destruct (IHF1 Hr) as (x9 & Hy & K). exists x9. split; [right; auto|auto]. }
          destruct K as (x & Hx & geno & Ex & Eh). exists geno. rewrite Ei in Hr. apply in_seq in Hr.
          destruct X2 as (_ & _ & _ & _ & X2). rewrite X2 by lia. split; auto.
          rewrite Forall_forall in Hin. destruct (Hin x Hx) as (geno' & Ex' & Dm). assert (geno' = geno) by congruence. subst. auto.
        - rewrite Forall_forall in F2. destruct (F2 r Hr) as (geno & sa & sb & Eg' & Eh). exists geno. split; auto.
          apply generated_ok in Eg'; auto. destruct g; auto; exact I. }
      destruct K as (geno & -> & Dm). cbn. rewrite Ph. destruct g as [gray gens bp| |]; try discriminate.
      destruct (Hps _ _ _ eq_refl) as (ps & -> & F).
      destruct (decode_usable gray gens ps geno F) as (xs & D & _); auto; [apply (proj1 U)|]. eauto 10. }
    intros u s3 R3. apply safe_bind; [apply reset_idx_safe|intros; apply safe_ret].
  Qed.
End PopulationProofs.
