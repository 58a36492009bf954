(** The order laws of the arithmetic that some theorems need: comparison of numbers is
    a total preorder on the numbers satisfying [ok] (all rationals; doubles that are
    not NaN). *)
From Coq Require Import ZArith QArith List Bool Lia Lqa.
From Verif Require Import Spec Num State ListLemmas.
Import ListNotations.
Open Scope Z_scope.

Record NumOrder (NO : NumOps) (ok : num -> Prop) : Prop := {
  no_irrefl : forall x, ok x -> nltb x x = false;
  no_trans : forall x y z, ok x -> ok y -> ok z -> nltb x y = true -> nltb y z = true -> nltb x z = true;
  no_negtrans : forall x y z, ok x -> ok y -> ok z -> nltb x y = false -> nltb y z = false -> nltb x z = false;
  no_eq : forall x y, ok x -> ok y -> (neqb x y = true <-> nltb x y = false /\ nltb y x = false);
  no_le : forall x y, ok x -> ok y -> nleb x y = negb (nltb y x);
  no_trunc : forall x y, ok x -> ok y -> neqb x y = true -> ntrunc x = ntrunc y;
  no_int : forall x z, ok x -> int_eqb x z = true -> ok (nofZ z)
}.

Lemma Qltb_iff : forall x y, Qltb x y = true <-> (x < y)%Q.
Proof.
  intros. unfold Qltb. rewrite negb_true_iff. split.
  - intros H. apply Qnot_le_lt. intros L. apply Qle_bool_iff in L. congruence.
  - intros H. destruct (Qle_bool y x) eqn:E; auto. apply Qle_bool_iff in E. lra.
Qed.
Lemma Qltb_iff_f : forall x y, Qltb x y = false <-> (y <= x)%Q.
Proof. intros. unfold Qltb. rewrite negb_false_iff, Qle_bool_iff. reflexivity. Qed.

(** int() gives the same result on equal fractions. *)
Lemma Qtrunc_comp : forall x y, (x == y)%Q -> Qtrunc x = Qtrunc y.
Proof.
  intros [a b] [c d] H. unfold Qeq, Qtrunc in *. cbn [Qnum Qden] in *.
  rewrite <- (Z.quot_mul_cancel_r a (Zpos b) (Zpos d)) by lia. rewrite H. rewrite (Z.mul_comm (Zpos b)). apply Z.quot_mul_cancel_r; lia.
Qed.

Lemma Qorder : NumOrder Qops (fun _ => True).
Proof.
  constructor; intros; simpl in *; rewrite ?Qltb_iff, ?Qltb_iff_f in *; try lra; auto.
  - rewrite Qeq_bool_iff. lra.
  - unfold Qltb. rewrite negb_involutive. reflexivity.
  - f_equal. apply Qtrunc_comp. apply Qeq_bool_iff. auto.
Qed.

Section Laws.
  Context {NO : NumOps} {ok : num -> Prop} (NL : NumOrder NO ok).

  Lemma lt_asym : forall x y, ok x -> ok y -> nltb x y = true -> nltb y x = false.
  Proof.
    intros x y Hx Hy H. destruct (nltb y x) eqn:E; auto.
    pose proof (no_trans _ _ NL x y x Hx Hy Hx H E) as C. rewrite (no_irrefl _ _ NL x Hx) in C. discriminate.
  Qed.
  Lemma eq_refl_n : forall x, ok x -> neqb x x = true.
  Proof. intros. apply (no_eq _ _ NL); auto. split; apply (no_irrefl _ _ NL); auto. Qed.
  Lemma eq_sym_n : forall x y, ok x -> ok y -> neqb x y = true -> neqb y x = true.
  Proof. intros x y Hx Hy H. apply (no_eq _ _ NL) in H; auto. apply (no_eq _ _ NL); tauto. Qed.
  Lemma eq_trans_n : forall x y z, ok x -> ok y -> ok z -> neqb x y = true -> neqb y z = true -> neqb x z = true.
  Proof.
    intros x y z Hx Hy Hz H1 H2. apply (no_eq _ _ NL) in H1; auto. apply (no_eq _ _ NL) in H2; auto.
    apply (no_eq _ _ NL); auto. destruct H1, H2. split.
    - apply (no_negtrans _ _ NL) with y; auto.
    - apply (no_negtrans _ _ NL) with y; auto.
  Qed.

  Definition gene_ok (g : gv) : Prop := match g with GNum x => ok x | _ => True end.
  Lemma gv_eqb_refl : forall g, gene_ok g -> gv_eqb g g = true.
  Proof.
    intros [b|x|z|s] H; simpl; [apply Bool.eqb_reflx|apply eq_refl_n; auto|apply Z.eqb_refl|apply String.eqb_refl].
  Qed.
  Lemma gv_eqb_sym : forall g h, gene_ok g -> gene_ok h -> gv_eqb g h = true -> gv_eqb h g = true.
  Proof.
    intros [b|x|z|s] [b'|x'|z'|s'] H1 H2; simpl; try discriminate; auto.
    - intros H. apply Bool.eqb_prop in H. subst. apply Bool.eqb_reflx.
    - apply eq_sym_n; auto.
    - rewrite Z.eqb_sym. auto.
    - rewrite String.eqb_sym. auto.
  Qed.
  Lemma int_eqb_inv : forall x z, int_eqb x z = true -> ntrunc x = Some z /\ neqb x (nofZ z) = true.
  Proof.
    intros x z H. unfold int_eqb in H. destruct (ntrunc x) as [t|]; [|discriminate]. apply andb_true_iff in H. destruct H as [E H].
    apply Z.eqb_eq in E. subst. auto.
  Qed.
  Lemma int_eqb_intro : forall x z, ntrunc x = Some z -> neqb x (nofZ z) = true -> int_eqb x z = true.
  Proof. intros x z E H. unfold int_eqb. rewrite E, Z.eqb_refl. auto. Qed.
  Lemma gv_eqb_trans : forall g h k, gene_ok g -> gene_ok h -> gene_ok k ->
    gv_eqb g h = true -> gv_eqb h k = true -> gv_eqb g k = true.
  Proof.
    intros [b|x|z|s] [b'|x'|z'|s'] [b''|x''|z''|s''] H1 H2 H3; simpl; try discriminate.
    - intros H H'. apply Bool.eqb_prop in H. apply Bool.eqb_prop in H'. subst. apply Bool.eqb_reflx.
    - apply eq_trans_n; auto.
    - intros H H'. pose proof (no_int _ _ NL _ _ H2 H') as O. apply int_eqb_inv in H'. destruct H' as [T E]. apply int_eqb_intro.
      + rewrite (no_trunc _ _ NL x x'); auto.
      + apply eq_trans_n with x'; auto.
    - intros H H'. pose proof (no_int _ _ NL _ _ H1 H) as O. apply int_eqb_inv in H. apply int_eqb_inv in H'. destruct H as [_ E], H' as [_ E'].
      apply eq_trans_n with (nofZ z'); auto. apply eq_sym_n; auto.
    - intros H H'. apply Z.eqb_eq in H'. subst. auto.
    - intros H H'. pose proof (no_int _ _ NL _ _ H2 H) as O. apply int_eqb_inv in H. destruct H as [T E].
      apply int_eqb_intro; [rewrite <- (no_trunc _ _ NL x' x''); auto|].
      apply eq_trans_n with x'; auto. apply eq_sym_n; auto.
    - intros H H'. apply int_eqb_inv in H. apply int_eqb_inv in H'. destruct H as [T _], H' as [T' _]. apply Z.eqb_eq. congruence.
    - intros H H'. apply Z.eqb_eq in H. subst. auto.
    - intros H H'. apply Z.eqb_eq in H. apply Z.eqb_eq in H'. apply Z.eqb_eq. congruence.
    - intros H H'. apply String.eqb_eq in H. apply String.eqb_eq in H'. apply String.eqb_eq. congruence.
  Qed.
End Laws.

(** An int gene is equal to at most one int. *)
Lemma gv_eqb_int : forall {NO : NumOps} z z' x, gv_eqb (GInt z) x = true -> gv_eqb (GInt z') x = true -> z = z'.
Proof.
  intros NO z z' [b|x|y|s] H H'; simpl in *; try discriminate.
  - apply int_eqb_inv in H. apply int_eqb_inv in H'. destruct H, H'. congruence.
  - apply Z.eqb_eq in H. apply Z.eqb_eq in H'. congruence.
Qed.
(** Genes compared exactly: bits, integers and strings. *)
Definition exact_gene {NO : NumOps} (g : gv) : Prop := match g with GNum _ => False | _ => True end.
Lemma gv_eqb_exact : forall {NO : NumOps} g h, exact_gene g -> exact_gene h -> gv_eqb g h = true <-> g = h.
Proof.
  intros NO [b|x|z|s] [b'|x'|z'|s'] H H'; simpl in *; try tauto; try (split; discriminate).
  - split; [intros E; apply Bool.eqb_prop in E; congruence|intros E; inversion E; apply Bool.eqb_reflx].
  - rewrite Z.eqb_eq. split; congruence.
  - rewrite String.eqb_eq. split; congruence.
Qed.
