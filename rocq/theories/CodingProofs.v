(** Proofs about encoding and decoding of real vectors (Binary.v), in two layers:
    facts for any arithmetic, then exact arithmetic. *)
From Coq Require Import String.
From Coq Require Import ZArith QArith Qround Qabs Qfield List Bool Lia Lqa Permutation.
From Verif Require Import Spec Num State Binary ListLemmas BinaryProofs.
Import ListNotations.
Open Scope list_scope.
Open Scope Z_scope.
Notation length := List.length.

Section Generic.
  Context {NO : NumOps}.

  (** The bits and effective step of one gene. *)
  Definition gene_params (gen : bgene) : exn + (Z * num) :=
    let gen_range := nabs (nsub (ghi gen) (glo gen)) in
    match py_div gen_range (gstep gen) with
    | inl e => inl e
    | inr q =>
        match ntrunc q with
        | None => inl (int_error q)
        | Some num_points =>
            match get_real_number_of_points num_points with
            | None => inl Unmodelled
            | Some (nb, rnp) =>
                match py_div gen_range (nofZ (2 ^ nb - 1)) with
                | inl e => inl e
                | inr stp => inr (nb, stp)
                end
            end
        end
    end.

  Fixpoint psums (acc : Z) (ns : list Z) : list Z :=
    match ns with [] => [] | n :: ns' => (acc + n) :: psums (acc + n) ns' end.

  Lemma gene_params_step : forall bp g, gen_params_step bp g =
    match gene_params g with
    | inl e => inl e
    | inr (nb, stp) => inr (mkBP (num_bits bp ++ [nb]) (real_num_points bp ++ [2 ^ nb - 1])
                                 (real_step bp ++ [stp])
                                 (idx_bits bp ++ [last (idx_bits bp) 0 + nb]))
    end.
  Proof.
    intros. unfold gen_params_step, gene_params.
    destruct (py_div _ _) as [e|q]; auto. destruct (ntrunc q) as [k|]; auto.
    destruct (real_number_spec k) as (n & -> & _).
    destruct (py_div _ _); auto.
  Qed.

  (** The parameters of a list of genes when every gene is acceptable. *)
  Lemma gens_params_ok : forall gens ps bp,
    Forall2 (fun g p => gene_params g = inr p) gens ps ->
    gen_params_loop bp gens =
      inr (mkBP (num_bits bp ++ map fst ps)
                (real_num_points bp ++ map (fun p => 2 ^ fst p - 1) ps)
                (real_step bp ++ map snd ps)
                (idx_bits bp ++ psums (last (idx_bits bp) 0) (map fst ps))).
  Proof.
    intros gens ps bp H. revert bp. induction H as [|g [n stp] gens ps Hg H IH]; intros bp; cbn [gen_params_loop map psums].
    - rewrite !app_nil_r. destruct bp; reflexivity.
    - rewrite gene_params_step, Hg, IH. cbn [num_bits real_num_points real_step idx_bits fst snd].
      rewrite <- !app_assoc. cbn [app]. rewrite last_last. reflexivity.
  Qed.
  (** The first unacceptable gene decides the exception. *)
  Lemma gens_params_err : forall pre ps g gens e bp,
    Forall2 (fun g p => gene_params g = inr p) pre ps -> gene_params g = inl e ->
    gen_params_loop bp (pre ++ g :: gens) = inl e.
  Proof.
    intros pre ps g gens e bp H Hg. revert bp. induction H as [|h [n stp] pre ps Hh H IH]; intros bp; cbn [gen_params_loop app].
    - rewrite gene_params_step, Hg. reflexivity.
    - rewrite gene_params_step, Hh. apply IH.
  Qed.
  Lemma gens_params_inv : forall gens bp bp', gen_params_loop bp gens = inr bp' ->
    exists ps, Forall2 (fun g p => gene_params g = inr p) gens ps.
  Proof.
    induction gens as [|g gens IH]; intros bp bp' H; [exists []; constructor|].
    cbn [gen_params_loop] in H. rewrite gene_params_step in H.
    destruct (gene_params g) as [e|[n stp]] eqn:E; [discriminate|].
    apply IH in H. destruct H as (ps & H). exists ((n, stp) :: ps). constructor; auto.
  Qed.

  (** Parameters computed by get_gens_params. *)
  Definition params_of (ps : list (Z * num)) : bparams :=
    mkBP (map fst ps) (map (fun p => 2 ^ fst p - 1) ps) (map snd ps) (0 :: psums 0 (map fst ps)).
  Lemma get_gens_params_ok : forall gens ps,
    Forall2 (fun g p => gene_params g = inr p) gens ps -> get_gens_params gens = inr (params_of ps).
  Proof.
    intros. unfold get_gens_params. rewrite gens_params_ok with (ps := ps) by auto. reflexivity.
  Qed.
  Lemma get_gens_params_inv : forall gens bp, get_gens_params gens = inr bp ->
    exists ps, Forall2 (fun g p => gene_params g = inr p) gens ps /\ bp = params_of ps.
  Proof.
    intros gens bp H. destruct (gens_params_inv _ _ _ H) as (ps & Hps). exists ps. split; auto.
    rewrite (get_gens_params_ok _ _ Hps) in H. congruence.
  Qed.

  Lemma last_psums : forall ns a d, last (a :: psums a ns) d = fold_left Z.add ns a.
  Proof.
    induction ns as [|n ns IH]; intros a d; [reflexivity|].
    cbn [psums fold_left]. specialize (IH (a + n) d). rewrite <- IH. reflexivity.
  Qed.
  Lemma idx_bits_total : forall ps, last (idx_bits (params_of ps)) 0 = fold_left Z.add (map fst ps) 0.
  Proof. intros. unfold params_of. cbn [idx_bits]. apply last_psums. Qed.

  (** Decoding chunk by chunk. *)
  Fixpoint decode_chunks (is_gray : bool) (gens : list bgene) (steps : list num) (cs : list (list bool)) : exn + list num :=
    match gens, steps, cs with
    | [], _, _ => inr []
    | g :: gens', stp :: steps', c :: cs' =>
        match decode_gene is_gray g stp c with
        | inl e => inl e
        | inr x => match decode_chunks is_gray gens' steps' cs' with
                   | inl e => inl e
                   | inr xs => inr (x :: xs)
                   end
        end
    | _, _, _ => inl IndexError
    end.

  Lemma decode_loop_chunks : forall gray gens steps ns cs pre post,
    length gens = length ns -> length steps = length ns ->
    Forall2 (fun n c => Z.of_nat (length c) = n) ns cs ->
    decode_loop gray gens steps (Z.of_nat (length pre) :: psums (Z.of_nat (length pre)) ns)
                (pre ++ concat cs ++ post)
    = decode_chunks gray gens steps cs.
  Proof.
    intros gray gens. induction gens as [|g gens IH]; intros steps ns cs pre post Hg Hs Hc; [reflexivity|].
    destruct ns as [|n ns]; [simpl in Hg; lia|]. destruct steps as [|stp steps]; [simpl in Hs; lia|].
    inversion Hc as [|? c ? cs' Hn Hc']; subst. cbn [decode_loop psums decode_chunks concat].
    assert (E : slice (pre ++ (c ++ concat cs') ++ post) (Z.of_nat (length pre))
                      (Z.of_nat (length pre) + Z.of_nat (length c)) = c).
    { rewrite slice_in by (rewrite !app_length; lia).
      rewrite Nat2Z.id. replace (Z.to_nat (Z.of_nat (length pre) + Z.of_nat (length c)) - length pre)%nat with (length c) by lia.
      rewrite skipn_app, skipn_all, Nat.sub_diag. cbn [app skipn].
      rewrite <- app_assoc. rewrite firstn_app, Nat.sub_diag, firstn_all. cbn [firstn]. apply app_nil_r. }
    rewrite E. destruct (decode_gene gray g stp c); auto.
    specialize (IH steps ns cs' (pre ++ c) post).
    rewrite app_length, Nat2Z.inj_add in IH. rewrite <- !app_assoc in *. rewrite IH; auto.
  Qed.

  Lemma split_chunks : forall ns (bs : list bool), Forall (fun n => 0 <= n) ns ->
    Z.of_nat (length bs) = fold_left Z.add ns 0 ->
    exists cs, bs = concat cs /\ Forall2 (fun n c => Z.of_nat (length c) = n) ns cs.
  Proof.
    assert (Hsum : forall ns a, Forall (fun n => 0 <= n) ns -> a <= fold_left Z.add ns a).
    { induction ns; simpl; intros; [lia|]. inversion H; subst. specialize (IHns (a0 + a) H3). lia. }
    assert (Hadd : forall ns a, fold_left Z.add ns a = a + fold_left Z.add ns 0).
    { induction ns; simpl; intros; [lia|]. rewrite IHns, (IHns a). lia. }
    induction ns as [|n ns IH]; intros bs Hn Hb.
    - simpl in Hb. destruct bs; [|simpl in Hb; lia]. exists []. split; auto.
    - inversion Hn; subst. cbn [fold_left] in Hb. rewrite Hadd in Hb.
      pose proof (Hsum ns 0 H2).
      destruct (IH (skipn (Z.to_nat n) bs)) as (cs & E & Hc); auto.
      { rewrite skipn_length. lia. }
      exists (firstn (Z.to_nat n) bs :: cs). split.
      + cbn [concat]. rewrite <- E. symmetry. apply firstn_skipn.
      + constructor; auto. rewrite firstn_length. lia.
  Qed.
  Lemma concat_length_sum : forall ns (cs : list (list bool)),
    Forall2 (fun n c => Z.of_nat (length c) = n) ns cs ->
    Z.of_nat (length (concat cs)) = fold_left Z.add ns 0.
  Proof.
    assert (Hadd : forall ns a, fold_left Z.add ns a = a + fold_left Z.add ns 0).
    { induction ns; simpl; intros; [lia|]. rewrite IHns, (IHns a). lia. }
    induction 1 as [|n c ns cs Hn H IH]; [reflexivity|].
    cbn [concat fold_left]. rewrite app_length, Hadd. lia.
  Qed.

  Lemma float_individ_len : forall gray gens bp xs, length xs = length gens ->
    float_individ_to_binary gray gens bp xs = encode_loop gray gens (real_step bp) (num_bits bp) xs.
  Proof. intros. unfold float_individ_to_binary. rewrite H, Nat.eqb_refl. reflexivity. Qed.
  Lemma float_individ_len_ne : forall gray gens bp xs, length xs <> length gens ->
    float_individ_to_binary gray gens bp xs = inl (PyException "incorrect len of input individ"%string).
  Proof. intros. unfold float_individ_to_binary. apply Nat.eqb_neq in H. rewrite H. reflexivity. Qed.
  Lemma geno_bits_id : forall bs, geno_to_bits (bits_to_geno bs) = Some bs.
  Proof. induction bs; simpl; auto. fold (bits_to_geno bs). rewrite IHbs. reflexivity. Qed.
  Lemma geno_to_bits_inv : forall g bs, geno_to_bits g = Some bs -> g = bits_to_geno bs.
  Proof.
    induction g as [|[b|x|z|s] g IH]; intros bs H; simpl in H; try discriminate.
    - inversion H; reflexivity.
    - destruct (geno_to_bits g) eqn:E; [|discriminate]. inversion H; subst. simpl.
      f_equal. apply IH. reflexivity.
  Qed.
End Generic.

(** *** Exact arithmetic *)
Local Existing Instance Qops.

Lemma Qle_bool_ltb : forall x y, Qltb x y = true <-> (x < y)%Q.
Proof.
  intros. unfold Qltb. rewrite negb_true_iff. split.
  - intros H. apply Qnot_le_lt. intros L. apply Qle_bool_iff in L. congruence.
  - intros H. destruct (Qle_bool y x) eqn:E; auto. apply Qle_bool_iff in E. lra.
Qed.
Lemma Qltb_false : forall x y, Qltb x y = false <-> (y <= x)%Q.
Proof.
  intros. unfold Qltb. rewrite negb_false_iff, Qle_bool_iff. reflexivity.
Qed.

Lemma Qtrunc_floor : forall q, (0 <= q)%Q -> Qtrunc q = Qfloor q.
Proof.
  intros [n d] H. unfold Qtrunc, Qfloor. simpl. apply Z.quot_div_nonneg; [|lia].
  unfold Qle in H. simpl in H. lia.
Qed.
Lemma Qtrunc_nonpos : forall q, (q <= 0)%Q -> Qtrunc q <= 0.
Proof.
  intros [n d] H. unfold Qtrunc. simpl. unfold Qle in H. simpl in H.
  replace n with (- (- n)) by lia. rewrite Z.quot_opp_l by lia.
  pose proof (Z.quot_pos (- n) (Zpos d)). lia.
Qed.
Lemma Qfloor_le_q : forall q, (inject_Z (Qfloor q) <= q)%Q.
Proof. exact Qfloor_le. Qed.
Lemma Qlt_floor_q : forall q, (q < inject_Z (Qfloor q) + 1)%Q.
Proof. intros. pose proof (Qlt_floor q). rewrite inject_Z_plus in H. auto. Qed.


Lemma points_pos : forall g, legal g -> 1 <= points g.
Proof.
  intros [[lo hi] st] [H1 H2]. unfold points. apply Z.le_trans with (Qfloor 1); [reflexivity|].
  apply Qfloor_resp_le. apply Qle_shift_div_l; auto. lra.
Qed.
Lemma bits_for_unique : forall g n m, bits_for g n -> bits_for g m -> n = m.
Proof.
  intros g n m (H1 & H2 & H3) (H4 & H5 & H6). apply (real_number_unique (points g)); auto; lia.
Qed.

Lemma nabs_pos : forall x : Q, (0 <= x)%Q -> nabs x = x.
Proof.
  intros. unfold nabs. simpl. destruct (Qltb x 0) eqn:E; auto. apply Qle_bool_ltb in E. lra.
Qed.
Lemma Qeq_bool_false : forall x y, ~ (x == y)%Q -> Qeq_bool x y = false.
Proof. intros. destruct (Qeq_bool x y) eqn:E; auto. apply Qeq_bool_iff in E. contradiction. Qed.

Lemma pow2_pos : forall n, 1 <= n -> 1 <= 2 ^ n - 1.
Proof. intros. assert (2 ^ 1 <= 2 ^ n) by (apply Z.pow_le_mono_r; lia). lia. Qed.
Lemma pow2_posQ : forall n, 1 <= n -> (1 <= inject_Z (2 ^ n - 1))%Q.
Proof. intros. change 1%Q with (inject_Z 1). rewrite <- Zle_Qle. apply pow2_pos. auto. Qed.

Lemma Qdiv_nonneg : forall x y : Q, (0 <= x)%Q -> (0 < y)%Q -> (0 <= x / y)%Q.
Proof. intros. apply Qle_shift_div_l; [auto|]. rewrite Qmult_0_l. auto. Qed.

Lemma gene_params_legal : forall g : qgene, legal g -> exists n,
  bits_for g n /\ gene_params (g : bgene) = inr (n, spacing g n).
Proof.
  intros [[lo hi] st] Hg. pose proof (points_pos _ Hg) as Hp. destruct Hg as [H1 H2].
  destruct (real_number_spec (points (lo, hi, st))) as (n & E & Hn & Hk & Hl).
  assert (Hn1 : 1 <= n).
  { destruct (Z.eq_dec n 0); [subst; change (2 ^ 0 - 1) with 0 in Hk; lia|lia]. }
  exists n. split; [split; auto|]. unfold points in E.
  unfold gene_params, ghi, glo, gstep, nsub, py_div, neqb, nzero, nofZ, ntrunc, ndiv_raw, Qops.
  cbn [fst snd].
  rewrite nabs_pos by lra. fold Qops. 
  rewrite Qeq_bool_false by (change (inject_Z 0) with 0%Q; intros ?; lra).
  rewrite Qtrunc_floor by (apply Qdiv_nonneg; lra).
  rewrite E.
  pose proof (pow2_pos n Hn1). rewrite Qeq_bool_false; [reflexivity|].
  rewrite inject_Z_injective. lia.
Qed.

(** *** Rounding *)
Lemma round_he_err : forall q, (Qabs (q - inject_Z (Qround_he q)) <= 1 # 2)%Q.
Proof.
  intros [n d]. unfold Qround_he. cbn [Qnum Qden].
  pose proof (Z.div_mod n (Zpos d) ltac:(lia)) as E. pose proof (Z.mod_pos_bound n (Zpos d) ltac:(lia)) as B.
  apply Qabs_Qle_condition.
  set (f := n / Z.pos d) in *. set (r := n mod Z.pos d) in *.
  assert (H : forall z, (2 * (n - z * Zpos d) <= Zpos d) -> (- Zpos d <= 2 * (n - z * Zpos d)) ->
     (- (1 # 2) <= (n # d) - inject_Z z)%Q /\ ((n # d) - inject_Z z <= 1 # 2)%Q).
  { intros z Hz1 Hz2. unfold Qle, Qminus, Qplus, Qopp, inject_Z. cbn [Qnum Qden].
    rewrite Pos.mul_1_r. split; lia. }
  destruct (2 * r ?= Zpos d) eqn:C.
  - apply Z.compare_eq in C. destruct (Z.even f); apply H; nia.
  - rewrite Z.compare_lt_iff in C. apply H; nia.
  - rewrite Z.compare_gt_iff in C. apply H; nia.
Qed.
(** Ties go to the even neighbour. *)
Lemma round_he_tie : forall q, (Qabs (q - inject_Z (Qround_he q)) == 1 # 2)%Q -> Z.even (Qround_he q) = true.
Proof.
  intros [n d]. unfold Qround_he. cbn [Qnum Qden].
  pose proof (Z.div_mod n (Zpos d) ltac:(lia)) as E. pose proof (Z.mod_pos_bound n (Zpos d) ltac:(lia)) as B.
  set (f := n / Z.pos d) in *. set (r := n mod Z.pos d) in *.
  assert (H : forall z, (Qabs ((n # d) - inject_Z z) == 1 # 2)%Q -> 2 * Z.abs (n - z * Zpos d) = Zpos d).
  { intros z. unfold Qeq, Qabs, Qminus, Qplus, Qopp, inject_Z. cbn [Qnum Qden]. rewrite Pos.mul_1_r. intros Hz. replace (n - z * Z.pos d) with (n * 1 + - z * Z.pos d) by lia. lia. }
  destruct (2 * r ?= Zpos d) eqn:C; intros T.
  - destruct (Z.even f) eqn:Ev; auto. rewrite Z.even_add, Ev. reflexivity.
  - apply H in T. rewrite Z.compare_lt_iff in C. exfalso. nia.
  - apply H in T. rewrite Z.compare_gt_iff in C. exfalso. nia.
Qed.
Lemma inject_Zm1 : forall z, (inject_Z (z - 1) == inject_Z z - 1)%Q.
Proof. intros. unfold Z.sub. rewrite inject_Z_plus. reflexivity. Qed.
Lemma round_he_near : forall q z, (Qabs (q - inject_Z z) < 1 # 2)%Q -> Qround_he q = z.
Proof.
  intros q z H. pose proof (round_he_err q) as H1.
  apply Qabs_Qle_condition in H1. apply Qabs_Qlt_condition in H.
  assert (A : (inject_Z (Qround_he q) < inject_Z (z + 1))%Q) by (rewrite inject_Z_plus; change (inject_Z 1) with 1%Q; lra).
  assert (B : (inject_Z (z - 1) < inject_Z (Qround_he q))%Q) by (rewrite inject_Zm1; lra).
  rewrite <- Zlt_Qlt in A, B. lia.
Qed.
Lemma round_he_bounds : forall q a b, (inject_Z a <= q)%Q -> (q <= inject_Z b)%Q -> a <= Qround_he q <= b.
Proof.
  intros q a b H1 H2. pose proof (round_he_err q) as H. apply Qabs_Qle_condition in H.
  assert (A : (inject_Z (Qround_he q) < inject_Z (b + 1))%Q) by (rewrite inject_Z_plus; change (inject_Z 1) with 1%Q; lra).
  assert (B : (inject_Z (a - 1) < inject_Z (Qround_he q))%Q) by (rewrite inject_Zm1; lra).
  rewrite <- Zlt_Qlt in A, B. lia.
Qed.

(** *** One gene *)
Section Codes.
  Context {NO : NumOps}.
  Lemma code_ok : forall gray i n, 1 <= n -> 0 <= i < 2 ^ n -> exists bs,
    pop_index_to_binary gray i n = inr bs /\ Z.of_nat (length bs) = n /\
    forall g stp, decode_gene gray g stp bs = inr (nadd (glo g) (nmul (nofZ i) stp)).
  Proof.
    intros gray i n Hn Hi. unfold pop_index_to_binary. destruct gray.
    - destruct (index_to_binary_ok (get_gray_value i) n Hn) as (bs & E & L & B); [apply gray_bound; lia|].
      exists bs. split; auto. split; auto. intros. unfold decode_gene, int_base2.
      destruct bs as [|b bs]; [simpl in L; lia|]. rewrite bits_val_base2, B, gray_decode by lia. reflexivity.
    - destruct (index_to_binary_ok i n Hn Hi) as (bs & E & L & B).
      exists bs. split; auto. split; auto. intros. unfold decode_gene, int_base2.
      destruct bs as [|b bs]; [simpl in L; lia|]. rewrite bits_val_base2, B. reflexivity.
  Qed.
  Lemma code_surj : forall gray n bs, 1 <= n -> Z.of_nat (length bs) = n -> exists i,
    0 <= i < 2 ^ n /\ pop_index_to_binary gray i n = inr bs.
  Proof.
    intros gray n bs Hn L. pose proof (base2_bound bs) as B. rewrite L in B.
    assert (K : forall v, v = base2 bs -> index_to_binary v n = inr bs).
    { intros v ->. destruct (index_to_binary_ok (base2 bs) n Hn B) as (bs' & E & L' & B').
      rewrite E. f_equal. apply base2_inj; auto; lia. }
    unfold pop_index_to_binary. destruct gray; [|exists (base2 bs); auto].
    destruct (gray_decode_bound (base2 bs) n ltac:(lia) B) as (v & _ & Hv & E). exists v. auto.
  Qed.
End Codes.

(** Position of a value on the grid of a gene. *)
Lemma nearest_index : forall lo hi st n x, legal (lo, hi, st) -> 1 <= n -> in_bounds (lo, hi, st) x ->
  let g := (lo, hi, st) in
  let i := Qround_he ((x - lo) / spacing g n) in
  0 <= i <= 2 ^ n - 1 /\ (Qabs (x - grid g n i) <= spacing g n / 2)%Q /\
  (forall j, (Qabs (x - grid g n i) <= Qabs (x - grid g n j))%Q) /\
  (forall j, (x == grid g n j)%Q -> i = j) /\
  ((Qabs (x - grid g n i) == spacing g n / 2)%Q -> Z.even i = true).
Proof.
  intros lo hi st n x [L1 L2] Hn [B1 B2] g i. pose proof (pow2_posQ n Hn) as HM.
  set (M := inject_Z (2 ^ n - 1)) in *.
  assert (Hs : (0 < spacing g n)%Q).
  { unfold spacing, g. fold M. apply Qlt_shift_div_l; lra. }
  set (s := spacing g n) in *.
  assert (Es : (s * M == hi - lo)%Q).
  { unfold s, spacing, g. fold M. field. lra. }
  set (q := ((x - lo) / s)%Q) in *.
  assert (Eq_ : (q * s == x - lo)%Q) by (unfold q; field; lra).
  assert (Q0 : (inject_Z 0 <= q)%Q) by (apply Qdiv_nonneg; lra).
  assert (Q1 : (q <= M)%Q).
  { unfold q. apply Qle_shift_div_r; [lra|]. rewrite Qmult_comm, Es. lra. }
  assert (G : forall j, (x - grid g n j == s * (q - inject_Z j))%Q).
  { intros. unfold grid, g. fold M. change ((hi - lo) / M)%Q with s.
    transitivity ((x - lo) - inject_Z j * s)%Q; [ring|]. rewrite <- Eq_. ring. }
  assert (A : forall j, (Qabs (x - grid g n j) == s * Qabs (q - inject_Z j))%Q).
  { intros. rewrite G, Qabs_Qmult, (Qabs_pos s) by lra. reflexivity. }
  pose proof (round_he_err q) as R. fold i in R.
  split; [apply round_he_bounds; auto|]. split.
  { rewrite A. apply Qle_trans with (s * (1#2))%Q; [|apply Qle_refl]. rewrite !(Qmult_comm s). apply Qmult_le_compat_r; lra. }
  split.
  - intros j. rewrite !A. rewrite !(Qmult_comm s). apply Qmult_le_compat_r; [|lra].
    destruct (Qlt_le_dec (Qabs (q - inject_Z j)) (1#2)) as [H|H].
    + apply round_he_near in H. fold i in H. rewrite H. apply Qle_refl.
    + lra.
  - split.
    + intros j Hj. apply round_he_near.
      assert (E : (s * Qabs (q - inject_Z j) == 0)%Q).
      { rewrite <- A, Hj. setoid_replace (grid g n j - grid g n j)%Q with 0%Q by ring. reflexivity. }
      apply Qmult_integral in E. lra.
    + intros T. apply round_he_tie. fold i. rewrite A in T. apply (Qmult_inj_l _ _ s); [lra|]. rewrite T. reflexivity.
Qed.
Lemma grid_bounds : forall g n i, legal g -> 1 <= n -> 0 <= i <= 2 ^ n - 1 -> in_bounds g (grid g n i).
Proof.
  intros [[lo hi] st] n i [L1 L2] Hn [H1 H2]. unfold in_bounds, grid.
  pose proof (pow2_posQ n Hn) as HM. rewrite Zle_Qle in H1, H2.
  set (M := inject_Z (2 ^ n - 1)) in *. change (inject_Z 0) with 0%Q in H1.
  assert (Hs : (0 < (hi - lo) / M)%Q) by (apply Qlt_shift_div_l; lra).
  assert (Es : ((hi - lo) / M * M == hi - lo)%Q) by (field; lra).
  set (s := ((hi - lo) / M)%Q) in *.
  assert ((0 <= inject_Z i * s)%Q) by (apply Qmult_le_0_compat; lra).
  assert ((inject_Z i * s <= M * s)%Q) by (apply Qmult_le_compat_r; lra).
  lra.
Qed.
Lemma grid_ends : forall lo hi st n, 1 <= n ->
  (grid (lo, hi, st) n 0 == lo)%Q /\ (grid (lo, hi, st) n (2 ^ n - 1) == hi)%Q.
Proof.
  intros. unfold grid. pose proof (pow2_posQ n H). split.
  - change (inject_Z 0) with 0%Q. lra.
  - field. lra.
Qed.

(** *** Vectors *)
Lemma zsum_fold : forall l a, fold_left Z.add l a = a + zsum l.
Proof. induction l; simpl; intros; [lia|]. rewrite IHl. lia. Qed.

Definition qparams (gens : list qgene) (ns : list Z) : list (Z * @num Qops) :=
  map (fun gn : qgene * Z => (snd gn, spacing (fst gn) (snd gn) : @num Qops)) (combine gens ns).

Lemma legal_params : forall gens : list qgene, Forall legal gens -> exists ns,
  Forall2 bits_for gens ns /\
  get_gens_params (gens : list bgene) =
    inr (@params_of Qops (qparams gens ns)) /\
  map fst (qparams gens ns) = ns /\ map snd (qparams gens ns) = map (fun gn => spacing (fst gn) (snd gn)) (combine gens ns).
Proof.
  intros gens H. assert (K : exists ns, Forall2 bits_for gens ns /\
    Forall2 (fun (g : bgene) p => gene_params g = inr p) gens (qparams gens ns)
    /\ map fst (qparams gens ns) = ns).
  { induction H as [|g gens Hg H IH]; [exists []; repeat split; constructor|].
    destruct IH as (ns & H1 & H2 & H3). destruct (gene_params_legal g Hg) as (n & Hn & E).
    exists (n :: ns). unfold qparams in *. split; [constructor; auto|]. cbn [combine map fst snd].
    split; [constructor; auto|]. f_equal; auto. }
  destruct K as (ns & H1 & H2 & H3). exists ns. split; auto. split; [apply get_gens_params_ok; auto|].
  split; auto. unfold qparams. rewrite map_map. reflexivity.
Qed.
Lemma get_params_bits : forall (gens : list qgene) ns, Forall legal gens -> Forall2 bits_for gens ns ->
  get_gens_params (gens : list bgene) = inr (@params_of Qops (qparams gens ns)) /\ map fst (qparams gens ns) = ns.
Proof.
  intros gens ns H Hb. destruct (legal_params gens H) as (ns' & H1 & H2 & H3 & _).
  assert (ns' = ns).
  { clear - Hb H1. revert ns' H1. induction Hb; intros ns' H1; inversion H1; subst; auto.
    f_equal; auto. eapply bits_for_unique; eauto. }
  subst. auto.
Qed.

Lemma encode_cons : forall gray (g : qgene) n x, legal g -> 1 <= n -> in_bounds g x ->
  exists c y, Z.of_nat (length c) = n /\ decode_gene gray (g : bgene) (spacing g n) c = inr y /\
    nearest_on_grid g n x y /\
    forall (gens : list qgene) steps ns xs,
      encode_loop gray (g :: gens : list bgene) (spacing g n :: steps) (n :: ns) (x :: xs) =
      match encode_loop gray (gens : list bgene) steps ns xs with
      | inl e => inl e
      | inr r => inr (c ++ r)
      end.
Proof.
  intros gray [[lo hi] st] n x Lg Hn1 Hx.
  pose proof (nearest_index lo hi st n x Lg Hn1 Hx) as K. cbv zeta in K.
  set (i := Qround_he ((x - lo) / spacing (lo, hi, st) n)) in *.
  destruct K as (Hi & K1 & K2 & K3 & K4).
  destruct (code_ok gray i n Hn1) as (c & Ec & Lc & Dc); [lia|].
  exists c, (grid (lo, hi, st) n i). split; auto. split; [apply Dc|]. split.
  - split; [exists i; auto|]. split; auto. split; auto.
    intros (j & Hj & Ej). rewrite (K3 j Ej). symmetry. exact Ej.
  - intros gens steps ns xs. cbn [encode_loop].
    assert (B1 : nltb x (glo ((lo, hi, st) : bgene)) = false) by (apply Qltb_false; apply Hx).
    assert (B2 : nltb (ghi ((lo, hi, st) : bgene)) x = false) by (apply Qltb_false; apply Hx).
    rewrite B1, B2. cbn [orb].
    assert (Hs : (0 < spacing (lo, hi, st) n)%Q).
    { unfold spacing. pose proof (pow2_posQ n Hn1). destruct Lg. apply Qlt_shift_div_l; lra. }
    unfold py_div. assert (Z0 : neqb (spacing (lo, hi, st) n) nzero = false).
    { apply Qeq_bool_false. intros Z0. rewrite Z0 in Hs. revert Hs. apply Qlt_irrefl. }
    rewrite Z0.
    assert (R : nround (ndiv_raw (nsub x (glo ((lo, hi, st) : bgene))) (spacing (lo, hi, st) n)) = Some i) by reflexivity.
    rewrite R, Ec. reflexivity.
Qed.
Lemma encode_decode_chunks : forall gray (gens : list qgene) ns xs,
  Forall legal gens -> Forall2 bits_for gens ns -> Forall2 in_bounds gens xs ->
  exists cs ys,
    encode_loop gray (gens : list bgene) (map snd (qparams gens ns)) ns xs = inr (concat cs) /\
    Forall2 (fun n c => Z.of_nat (length c) = n) ns cs /\
    decode_chunks gray (gens : list bgene) (map snd (qparams gens ns)) cs = inr ys /\
    Forall4 nearest_on_grid gens ns xs ys.
Proof.
  intros gray gens. induction gens as [|g gens IH]; intros ns xs HL HB HI.
  - inversion HB; subst. inversion HI; subst. exists [], []. repeat split; constructor.
  - inversion HL as [|? ? Lg HL']; subst. inversion HB as [|? n ? ns' Hn HB']; subst.
    inversion HI as [|? x ? xs' Hx HI']; subst.
    destruct (IH ns' xs' HL' HB' HI') as (cs & ys & E & C & D & F).
    pose proof Hn as (Hn1 & _).
    destruct (encode_cons gray g n x Lg Hn1 Hx) as (c & y & Lc & Dc & Ny & Ee).
    exists (c :: cs), (y :: ys).
    unfold qparams in *. cbn [combine map fst snd].
    rewrite Ee, E. split; [reflexivity|].
    split; [constructor; auto|]. split; [|constructor; auto].
    cbn [decode_chunks]. rewrite Dc, D. reflexivity.
Qed.

Lemma qparams_len : forall gens ns, Forall2 bits_for gens ns ->
  length gens = length ns /\ length (map snd (qparams gens ns)) = length ns.
Proof.
  intros gens ns H. apply Forall2_length in H. split; auto.
  unfold qparams. rewrite !map_length, combine_length. lia.
Qed.

(** C04 *)
Lemma round_trip : forall gray (gens : list qgene) xs, Forall legal gens -> Forall2 in_bounds gens xs ->
  exists bp ns bs ys,
    get_gens_params (gens : list bgene) = inr bp /\ num_bits bp = ns /\ Forall2 bits_for gens ns /\
    float_individ_to_binary gray (gens : list bgene) bp xs = inr bs /\
    Z.of_nat (length bs) = zsum ns /\
    binary_individ_to_float gray (gens : list bgene) bp bs = inr ys /\
    Forall4 nearest_on_grid gens ns xs ys.
Proof.
  intros gray gens xs HL HI. destruct (legal_params gens HL) as (ns & HB & E & Ens & _).
  destruct (encode_decode_chunks gray gens ns xs HL HB HI) as (cs & ys & E1 & C & D & F).
  exists (@params_of Qops (qparams gens ns)), ns, (concat cs), ys. split; auto. split; [exact Ens|]. split; auto.
  destruct (qparams_len gens ns HB) as [L1 L2].
  split.
  - apply Forall2_length in HI.
    rewrite float_individ_len by (symmetry; exact HI).
    unfold params_of. cbn [real_step num_bits]. rewrite Ens. exact E1.
  - split. { rewrite (concat_length_sum ns cs C), zsum_fold. lia. }
    split; auto. unfold binary_individ_to_float, params_of. cbn [real_step idx_bits]. rewrite Ens.
    rewrite <- D. rewrite <- (app_nil_r (concat cs)).
    apply (@decode_loop_chunks Qops gray gens _ ns cs [] []); auto.
Qed.

(** C06 *)
Definition in_boundsb (g : qgene) (x : Q) : bool :=
  match g with (lo, hi, _) => negb (Qltb x lo || Qltb hi x) end.
Lemma in_boundsb_spec : forall g x, in_boundsb g x = true <-> in_bounds g x.
Proof.
  intros [[lo hi] st] x. unfold in_boundsb, in_bounds. rewrite negb_true_iff, orb_false_iff, !Qltb_false. tauto.
Qed.
Lemma encode_reject : forall gray (gens : list qgene) ns xs,
  Forall legal gens -> Forall2 bits_for gens ns -> length xs = length gens -> ~ Forall2 in_bounds gens xs ->
  exists tag, encode_loop gray (gens : list bgene) (map snd (qparams gens ns)) ns xs = inl (PyException tag).
Proof.
  intros gray gens. induction gens as [|g gens IH]; intros ns xs HL HB HX HN.
  - destruct xs; [|simpl in HX; lia]. elim HN. constructor.
  - destruct xs as [|x xs]; [simpl in HX; lia|]. injection HX as HX.
    inversion HL as [|? ? Lg HL']; subst. inversion HB as [|? n ? ns' Hn HB']; subst.
    pose proof Hn as (Hn1 & _). unfold qparams in *. cbn [combine map fst snd].
    destruct (in_boundsb g x) eqn:EB.
    + apply in_boundsb_spec in EB.
      destruct (IH ns' xs HL' HB' HX) as (tag & E); [intros C; apply HN; constructor; auto|].
      destruct (encode_cons gray g n x Lg Hn1 EB) as (c & y & _ & _ & _ & Ee).
      rewrite Ee, E. eexists; reflexivity.
    + cbn [encode_loop].
      assert (B : nltb x (glo (g : bgene)) || nltb (ghi (g : bgene)) x = true).
      { destruct g as [[lo hi] st]. apply negb_false_iff. exact EB. }
      rewrite B. eexists; reflexivity.
Qed.
Lemma input_checked : forall gray (gens : list qgene) bp xs, Forall legal gens ->
  get_gens_params (gens : list bgene) = inr bp ->
  (Forall2 in_bounds gens xs -> exists bs, float_individ_to_binary gray (gens : list bgene) bp xs = inr bs) /\
  (~ Forall2 in_bounds gens xs -> exists tag, float_individ_to_binary gray (gens : list bgene) bp xs = inl (PyException tag)).
Proof.
  intros gray gens bp xs HL E. split.
  - intros HI. destruct (round_trip gray gens xs HL HI) as (bp' & ns & bs & ys & E' & _ & _ & F & _).
    rewrite E in E'. inversion E'; subst. eauto.
  - intros HN. destruct (legal_params gens HL) as (ns & HB & E' & Ens & _).
    rewrite E in E'. inversion E'; subst bp.
    destruct (Nat.eq_dec (length xs) (length gens)) as [El|El].
    + rewrite float_individ_len by exact El. unfold params_of. cbn [real_step num_bits]. rewrite Ens. apply encode_reject; auto.
    + exists "incorrect len of input individ"%string. apply float_individ_len_ne. exact El.
Qed.

(** C05 *)
Lemma chunk_decode : forall gray (gens : list qgene) ns cs, Forall legal gens -> Forall2 bits_for gens ns ->
  Forall2 (fun n c => Z.of_nat (length c) = n) ns cs ->
  exists ys, decode_chunks gray (gens : list bgene) (map snd (qparams gens ns)) cs = inr ys /\
    Forall3 (fun g n y => exists i, 0 <= i <= 2 ^ n - 1 /\ y = grid g n i) gens ns ys.
Proof.
  intros gray gens. induction gens as [|g gens IH]; intros ns cs HL HB HC.
  - inversion HB; subst. exists []. split; constructor.
  - inversion HL as [|? ? Lg HL']; subst. inversion HB as [|? n ? ns' Hn HB']; subst.
    inversion HC as [|? c ? cs' Hc HC']; subst.
    destruct (IH ns' cs' HL' HB' HC') as (ys & D & F). pose proof Hn as (Hn1 & _).
    destruct g as [[lo hi] st].
    destruct (code_surj gray _ c Hn1 eq_refl) as (i & Hi & Ei).
    destruct (code_ok gray i _ Hn1 Hi) as (c' & Ec' & _ & Dc). rewrite Ei in Ec'. inversion Ec'; subst c'.
    exists (grid (lo, hi, st) (Z.of_nat (length c)) i :: ys).
    unfold qparams in *. cbn [combine map fst snd decode_chunks]. rewrite Dc.
    rewrite D. split; [reflexivity|]. constructor; auto. exists i. split; auto. lia.
Qed.
Lemma grid_encode : forall gray (gens : list qgene) ns ys, Forall legal gens -> Forall2 bits_for gens ns ->
  Forall3 (fun g n y => exists i, 0 <= i <= 2 ^ n - 1 /\ y = grid g n i) gens ns ys ->
  exists cs, Forall2 (fun n c => Z.of_nat (length c) = n) ns cs /\
    decode_chunks gray (gens : list bgene) (map snd (qparams gens ns)) cs = inr ys.
Proof.
  intros gray gens ns ys HL HB F. induction F as [|g n y gens ns ys (i & Hi & Ey) F IH]; [exists []; split; [constructor|reflexivity]|].
  inversion HL as [|? ? Lg HL']; subst. inversion HB as [|? ? ? ? Hn HB']; subst.
  destruct (IH HL' HB') as (cs & C & D). pose proof Hn as (Hn1 & _).
  destruct (code_ok gray i n Hn1) as (c & Ec & Lc & Dc); [lia|].
  exists (c :: cs). split; [constructor; auto|]. destruct g as [[lo hi] st].
  unfold qparams in *. cbn [combine map fst snd decode_chunks]. rewrite Dc. rewrite D. reflexivity.
Qed.
Lemma Forall3_bounds : forall gens ns ys, Forall legal gens -> Forall2 bits_for gens ns ->
  Forall3 (fun g n y => exists i, 0 <= i <= 2 ^ n - 1 /\ y = grid g n i) gens ns ys ->
  Forall2 in_bounds gens ys.
Proof.
  intros gens ns ys HL HB F. induction F as [|g n y gens ns ys (i & Hi & Ey) F IH]; [constructor|].
  inversion HL as [|? ? Lg HL']; subst. inversion HB as [|? ? ? ? (Hn1 & _) HB']; subst.
  constructor; auto. apply grid_bounds; auto.
Qed.
Lemma decode_total : forall gray (gens : list qgene), Forall legal gens ->
  exists bp ns, get_gens_params (gens : list bgene) = inr bp /\ num_bits bp = ns /\ Forall2 bits_for gens ns /\
  (forall bs, Z.of_nat (length bs) = zsum ns -> exists ys,
     binary_individ_to_float gray (gens : list bgene) bp bs = inr ys /\
     Forall3 (fun g n y => exists i, 0 <= i <= 2 ^ n - 1 /\ y = grid g n i) gens ns ys /\
     Forall2 in_bounds gens ys) /\
  (forall ys, Forall3 (fun g n y => exists i, 0 <= i <= 2 ^ n - 1 /\ y = grid g n i) gens ns ys ->
     exists bs, Z.of_nat (length bs) = zsum ns /\
       binary_individ_to_float gray (gens : list bgene) bp bs = inr ys).
Proof.
  intros gray gens HL. destruct (legal_params gens HL) as (ns & HB & E & Ens & _).
  exists (@params_of Qops (qparams gens ns)), ns. split; auto. split; [exact Ens|]. split; auto.
  destruct (qparams_len gens ns HB) as [L1 L2].
  assert (K : forall cs, Forall2 (fun n c => Z.of_nat (length c) = n) ns cs ->
    binary_individ_to_float gray (gens : list bgene) (@params_of Qops (qparams gens ns)) (concat cs) =
    decode_chunks gray (gens : list bgene) (map snd (qparams gens ns)) cs).
  { intros cs C. unfold binary_individ_to_float, params_of. cbn [real_step idx_bits]. rewrite Ens.
    rewrite <- (app_nil_r (concat cs)). apply (@decode_loop_chunks Qops gray gens _ ns cs [] []); auto. }
  split.
  - intros bs Lb. destruct (split_chunks ns bs) as (cs & -> & C).
    + clear - HB. induction HB as [|g n gens ns H HB IH]; constructor; auto. destruct H. lia.
    + rewrite Lb, zsum_fold. lia.
    + rewrite (K cs C). destruct (chunk_decode gray gens ns cs HL HB C) as (ys & D & F).
      exists ys. split; auto. split; auto. eapply Forall3_bounds; eauto.
  - intros ys F. destruct (grid_encode gray gens ns ys HL HB F) as (cs & C & D).
    exists (concat cs). split; [rewrite (concat_length_sum ns cs C), zsum_fold; lia|]. rewrite (K cs C). exact D.
Qed.

(** C07 *)
Lemma spacing_bound : forall lo hi st n, legal (lo, hi, st) -> bits_for (lo, hi, st) n ->
  (spacing (lo, hi, st) n < 2 * st)%Q /\
  ((exists k, (hi - lo) / st == inject_Z k)%Q -> (spacing (lo, hi, st) n <= st)%Q).
Proof.
  intros lo hi st n [L1 L2] (H1 & H2 & _). pose proof (points_pos (lo, hi, st) (conj L1 L2)) as Hp.
  unfold spacing. pose proof (pow2_posQ n H1) as HM. rewrite Zle_Qle in H2, Hp.
  set (M := inject_Z (2 ^ n - 1)) in *. unfold points in *. set (q := ((hi - lo) / st)%Q) in *.
  assert (Eq_ : (q * st == hi - lo)%Q) by (unfold q; field; lra).
  change (inject_Z 1) with 1%Q in Hp. pose proof (Qlt_floor_q q) as F.
  split.
  - apply Qlt_shift_div_r; [lra|]. rewrite <- Eq_.
    setoid_replace (2 * st * M)%Q with ((2 * M) * st)%Q by ring. apply Qmult_lt_compat_r; lra.
  - intros (k & Ek). apply Qle_shift_div_r; [lra|]. rewrite <- Eq_. rewrite (Qmult_comm st).
    apply Qmult_le_compat_r; [|lra]. rewrite Ek in *. rewrite Qfloor_Z in *. exact H2.
Qed.

(** C08 *)
Lemma unusable_params : forall g : qgene, unusable g -> gene_params (g : bgene) = inl ZeroDivisionError.
Proof.
  intros [[lo hi] st] H. unfold gene_params, ghi, glo, gstep, nsub, py_div, neqb, nzero, nofZ, ntrunc, ndiv_raw, Qops.
  cbn [fst snd]. fold Qops.
  destruct (Qeq_bool st (inject_Z 0)) eqn:E0; [reflexivity|].
  assert (Hst : ~ (st == 0)%Q) by (intros C; apply Qeq_bool_iff in C; change (inject_Z 0) with 0%Q in E0; congruence).
  set (R := @nabs Qops (hi - lo)%Q).
  assert (ER : R = @nabs Qops (hi - lo)%Q) by reflexivity. unfold nabs, Qops in ER.
  assert (R0 : (0 <= R)%Q /\ (R == Qabs (hi - lo))%Q).
  { rewrite ER. destruct (Qltb (hi - lo) 0) eqn:EL.
    - apply Qle_bool_ltb in EL. split; [lra|]. rewrite Qabs_neg; lra.
    - apply Qltb_false in EL. split; [lra|]. rewrite Qabs_pos; lra. }
  destruct R0 as [R0 RA]. 
  assert (T : Qtrunc (R / st) <= 0).
  { destruct (Qlt_le_dec 0 st) as [P|P].
    - destruct H as [H|H]; [lra|]. rewrite Qtrunc_floor by (apply Qdiv_nonneg; auto).
      assert (L : (R / st < 1)%Q) by (apply Qlt_shift_div_r; lra).
      pose proof (Qfloor_le (R / st)). assert (X : (inject_Z (Qfloor (R / st)) < inject_Z 1)%Q) by (change (inject_Z 1) with 1%Q; lra).
      rewrite <- Zlt_Qlt in X. lia.
    - apply Qtrunc_nonpos. assert (N : (0 < - st)%Q) by lra.
      setoid_replace (R / st)%Q with (- (R / (- st)))%Q by (field; lra).
      pose proof (Qdiv_nonneg R (- st) R0 N). lra. }
  destruct (real_number_spec (Qtrunc (R / st))) as (n & E & Hn & Hk & Hl). rewrite E.
  assert (n = 0). { destruct (Z.eq_dec n 0); auto. specialize (Hl 0). change (2 ^ 0 - 1) with 0 in Hl. lia. }
  subst n. reflexivity.
Qed.
Lemma reversed_params : forall g : qgene, reversed g -> exists lo hi st n, g = (lo, hi, st) /\
  bits_for (hi, lo, st) n /\ gene_params (g : bgene) = inr (n, spacing (hi, lo, st) n).
Proof.
  intros [[lo hi] st] (H1 & H2 & H3). exists lo, hi, st.
  destruct (gene_params_legal (hi, lo, st)) as (n & Hn & E); [split; auto|].
  assert (Hp : (0 < hi - lo \/ hi - lo <= 0)%Q) by (destruct (Qlt_le_dec 0 (hi - lo)); auto).
  (* the range is the same up to the representation of the rational *)
  pose proof (points_pos (hi, lo, st) (conj H2 H3)) as P.
  exists n. split; auto. split; auto.
  revert E. unfold gene_params, ghi, glo, gstep, nsub, Qops. cbn [fst snd]. fold Qops.
  assert (ER : @nabs Qops (hi - lo)%Q = @nabs Qops (lo - hi)%Q).
  { unfold nabs, Qops. destruct (Qltb (hi - lo) 0) eqn:A; [|apply Qltb_false in A; lra].
    destruct (Qltb (lo - hi) 0) eqn:B; [apply Qle_bool_ltb in B; lra|].
    unfold Qminus, Qopp, Qplus. cbn [Qnum Qden]. f_equal; [lia|]. apply Pos.mul_comm. }
  rewrite ER. auto.
Qed.

(** Every gene is exactly one of legal, reversed, unusable. *)
Lemma gene_cases : forall g, legal g \/ reversed g \/ unusable g.
Proof.
  intros [[lo hi] st]. unfold legal, reversed, unusable.
  destruct (Qlt_le_dec 0 st) as [P|P]; [|right; right; left; auto].
  destruct (Qlt_le_dec (Qabs (hi - lo)) st) as [A|A]; [right; right; right; auto|].
  destruct (Qlt_le_dec hi lo) as [B|B].
  - right; left. rewrite Qabs_neg in A by lra. repeat split; lra.
  - left. rewrite Qabs_pos in A by lra. split; lra.
Qed.
Lemma usable_not_unusable : forall g, legal g \/ reversed g -> ~ unusable g.
Proof.
  intros [[lo hi] st]. unfold legal, reversed, unusable. intros [[H1 H2]|(H1 & H2 & H3)] [C|C]; try lra.
  - rewrite Qabs_pos in C by lra. lra.
  - rewrite Qabs_neg in C by lra. lra.
Qed.
Lemma usable_params : forall g : qgene, legal g \/ reversed g -> exists n, 
  bits_for (ordered_gene g) n /\ gene_params (g : bgene) = inr (n, spacing (ordered_gene g) n).
Proof.
  intros [[lo hi] st] [H|H].
  - destruct (gene_params_legal _ H) as (n & Hn & E). exists n. destruct H as [H1 H2].
    unfold ordered_gene. assert (L : Qle_bool lo hi = true) by (apply Qle_bool_iff; lra). rewrite L. auto.
  - destruct (reversed_params _ H) as (lo' & hi' & st' & n & E0 & Hn & E). inversion E0; subst. exists n.
    destruct H as [H1 H2].
    unfold ordered_gene. assert (L : Qle_bool lo' hi' = false).
    { destruct (Qle_bool lo' hi') eqn:X; auto. apply Qle_bool_iff in X. lra. }
    rewrite L. auto.
Qed.
Lemma params_exn : forall gens : list qgene,
  (Exists unusable gens -> get_gens_params (gens : list bgene) = inl ZeroDivisionError) /\
  (~ Exists unusable gens -> exists bp, get_gens_params (gens : list bgene) = inr bp /\
     Forall2 (fun g n => bits_for (ordered_gene g) n) gens (num_bits bp)).
Proof.
  intros gens. split.
  - intros H. assert (K : exists pre ps g post, gens = pre ++ g :: post /\ unusable g /\
        Forall2 (fun (g : bgene) p => gene_params g = inr p) pre ps).
    { clear - H. induction gens as [|g gens IH]; [inversion H|].
      assert (D : unusable g \/ ~ unusable g).
      { destruct (gene_cases g) as [C|[C|C]]; auto; right; apply usable_not_unusable; auto. }
      destruct D as [D|D].
      - exists [], [], g, gens. repeat split; auto.
      - assert (U : legal g \/ reversed g) by (destruct (gene_cases g) as [C|[C|C]]; auto; contradiction).
        destruct (usable_params g U) as (n & _ & E).
        inversion H; subst; [contradiction|]. destruct (IH H1) as (pre & ps & g' & post & -> & U' & F).
        exists (g :: pre), ((n, spacing (ordered_gene g) n) :: ps), g', post.
        split; [reflexivity|]. split; auto. }
    destruct K as (pre & ps & g & post & -> & U & F). unfold get_gens_params.
    apply (@gens_params_err Qops pre ps g post); auto. apply unusable_params; auto.
  - intros H. assert (K : exists ps, Forall2 (fun (g : bgene) p => gene_params g = inr p) gens ps /\
       Forall2 (fun g n => bits_for (ordered_gene g) n) gens (map fst ps)).
    { clear - H. induction gens as [|g gens IH]; [exists []; split; constructor|].
      assert (U : legal g \/ reversed g).
      { destruct (gene_cases g) as [C|[C|C]]; auto. elim H. constructor; auto. }
      destruct (usable_params g U) as (n & B & E). destruct IH as (ps & F1 & F2); [intros C; apply H; right; auto|].
      exists ((n, spacing (ordered_gene g) n) :: ps). split; constructor; auto. }
    destruct K as (ps & F1 & F2). exists (@params_of Qops ps). split; [apply get_gens_params_ok; auto|exact F2].
Qed.

(** Input for a list of usable genes one of which is reversed. *)
Lemma encode_reject_reversed : forall gray (gens : list qgene) ps xs,
  Forall2 (fun (g : bgene) (p : Z * @num Qops) => gene_params g = inr p) gens ps ->
  Forall (fun g => legal g \/ reversed g) gens -> Exists reversed gens -> length xs = length gens ->
  exists tag, encode_loop gray (gens : list bgene) (map snd ps) (map fst ps) xs = inl (PyException tag).
Proof.
  intros gray gens ps xs F. revert xs. induction F as [|g [n stp] gens ps E F IH]; intros xs HU HE HL; [inversion HE|].
  destruct xs as [|x xs]; [simpl in HL; lia|]. injection HL as HL. inversion HU as [|? ? Ug HU']; subst.
  cbn [map fst snd].
  destruct (in_boundsb g x) eqn:EB.
  - apply in_boundsb_spec in EB.
    assert (Lg : legal g).
    { destruct Ug as [|R]; auto. exfalso. destruct g as [[lo hi] st]. destruct R, EB. lra. }
    destruct (gene_params_legal g Lg) as (m & (Hm & _) & E'). unfold qgene in E, E'. rewrite E in E'. inversion E'; subst m stp.
    destruct (encode_cons gray g n x Lg Hm EB) as (c & y & _ & _ & _ & Ee).
    assert (HE' : Exists reversed gens).
    { inversion HE; subst; auto. exfalso. destruct g as [[lo hi] st]. destruct Lg, H0 as (? & ? & ?). lra. }
    destruct (IH xs HU' HE' HL) as (tag & Et). rewrite Ee, Et. eexists; reflexivity.
  - cbn [encode_loop].
    assert (B : nltb x (glo (g : bgene)) || nltb (ghi (g : bgene)) x = true).
    { destruct g as [[lo hi] st]. apply negb_false_iff. exact EB. }
    rewrite B. eexists; reflexivity.
Qed.
Lemma reversed_input_rejected : forall gray (gens : list qgene) bp xs,
  Forall (fun g => legal g \/ reversed g) gens -> Exists reversed gens ->
  get_gens_params (gens : list bgene) = inr bp ->
  exists tag, float_individ_to_binary gray (gens : list bgene) bp xs = inl (PyException tag).
Proof.
  intros gray gens bp xs HU HE E. destruct (get_gens_params_inv _ _ E) as (ps & F & ->).
  destruct (Nat.eq_dec (length xs) (length gens)) as [El|El].
  - rewrite float_individ_len by exact El. unfold params_of. cbn [real_step num_bits].
    apply encode_reject_reversed; auto.
  - eexists. apply float_individ_len_ne. exact El.
Qed.
(** What a reversed gene decodes to. *)
Lemma reversed_decode : forall gray lo hi st, reversed (lo, hi, st) ->
  exists bp n, get_gens_params ([(lo, hi, st)] : list bgene) = inr bp /\ num_bits bp = [n] /\
    bits_for (hi, lo, st) n /\
    forall bs, Z.of_nat (length bs) = n -> exists i,
      0 <= i <= 2 ^ n - 1 /\ pop_index_to_binary gray i n = inr bs /\
      exists y, binary_individ_to_float gray ([(lo, hi, st)] : list bgene) bp bs = inr [y] /\
        (y == lo + inject_Z i * ((lo - hi) / inject_Z (2 ^ n - 1)))%Q.
Proof.
  intros gray lo hi st R. destruct (reversed_params _ R) as (lo' & hi' & st' & n & E0 & Hn & E). inversion E0; subst lo' hi' st'.
  exists (@params_of Qops [(n, spacing (hi, lo, st) n)]), n.
  split. { apply get_gens_params_ok. constructor; [exact E|constructor]. }
  split; [reflexivity|]. split; auto. intros bs Lb. destruct Hn as (Hn1 & _).
  destruct (code_surj gray n bs Hn1 Lb) as (i & Hi & Ei).
  destruct (@code_ok Qops gray i n Hn1 Hi) as (bs' & Ei' & _ & D). rewrite Ei in Ei'. inversion Ei'; subst bs'.
  exists i. split; [lia|]. split; auto. exists (lo + inject_Z i * spacing (hi, lo, st) n)%Q. split.
  - unfold binary_individ_to_float, params_of. cbn [real_step idx_bits map fst snd psums].
    pose proof (@decode_loop_chunks Qops gray [(lo, hi, st)] [spacing (hi, lo, st) n] [n] [bs] [] []) as K.
    cbn [length concat app psums] in K. rewrite !app_nil_r in K. change (Z.of_nat 0) with 0 in K.
    change (0 :: [0 + n]) with [0; 0 + n] in K.
    etransitivity; [apply K; auto|].
    cbn [decode_chunks]. rewrite D. reflexivity.
  - reflexivity.
Qed.
