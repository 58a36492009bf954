(** From any tour to any other: reversals of the two ends and moves of single genes. *)
From Coq Require Import ZArith QArith List Bool Lia Lqa Permutation.
From Verif Require Import Spec Num State Binary Population GaData Crossover Mutation ListLemmas DomainProofs OptimizeProofs TourLuck.
Import ListNotations.
Open Scope list_scope.
Open Scope Z_scope.

Section TourPaths.
  Context {NO : NumOps}.

  (** [hops len n X Z]: from [X] to [Z] in [n] generations in which every child is made of
      two copies of the same tour. *)
  Inductive hops (len : nat) : nat -> list gv -> list gv -> Prop :=
  | hops_0 : forall X, hops len 0 X X
  | hops_S : forall n X Y Z, one_move (cut_child len X X) Y -> hops len n Y Z -> hops len (S n) X Z.

  Lemma int_mem : forall z zs, gv_mem (GInt z) (map GInt zs) = true <-> In z zs.
  Proof.
    intros z zs. induction zs as [|y zs IH]; cbn [map gv_mem In]; [split; [discriminate|tauto]|]. rewrite orb_true_iff, IH. cbn [gv_eqb]. rewrite Z.eqb_eq. split; intros [H|H]; auto.
  Qed.
  Lemma cut_self : forall a mid b, NoDup (a :: mid ++ [b]) -> cut_child (length (a :: mid ++ [b])) (map GInt (a :: mid ++ [b])) (map GInt (a :: mid ++ [b])) = map GInt (b :: mid ++ [a]).
  Proof.
    intros a mid b Nd. unfold cut_child, order_child. set (n := length (a :: mid ++ [b])). assert (En : n = S (S (length mid))) by (unfold n; cbn [length]; rewrite app_length; cbn; lia).
    assert (Sg : slice (map GInt (a :: mid ++ [b])) 1 (Z.of_nat n - 1) = map (@GInt NO) mid).
    { unfold slice, slice_pos. rewrite map_length. fold n. destruct (Z.ltb_spec 1 0); [lia|]. destruct (Z.ltb_spec (Z.of_nat n - 1) 0); [lia|].
      replace (Z.to_nat (Z.max 0 (Z.min (Z.of_nat n) 1))) with 1%nat by lia. replace (Z.to_nat (Z.max 0 (Z.min (Z.of_nat n) (Z.of_nat n - 1)))) with (S (length mid)) by lia.
      cbn [map skipn]. replace (S (length mid) - 1)%nat with (length (map (@GInt NO) mid) + 0)%nat by (rewrite map_length; lia). rewrite map_app, firstn_app_2. cbn. apply app_nil_r. }
    rewrite Sg. inversion Nd as [|? ? Na Nd']; subst.
    assert (Nb : ~ In b mid) by (apply NoDup_remove_2 in Nd'; rewrite app_nil_r in Nd'; auto).
    assert (Na' : ~ In a mid) by (intros C; apply Na, in_or_app; auto).
    assert (Fl : filter (fun x => negb (gv_mem x (map GInt mid))) (map GInt (a :: mid ++ [b])) = map (@GInt NO) [a; b]).
    { cbn [map filter]. destruct (gv_mem (GInt a) (map GInt mid)) eqn:Ea; [exfalso; apply Na', int_mem; auto|]. cbn [negb]. rewrite map_app, filter_app.
      assert (F0 : forall l, (forall z, In z l -> In z mid) -> filter (fun x => negb (gv_mem x (map GInt mid))) (map (@GInt NO) l) = []).
      { induction l as [|z l IH]; intros H; auto. cbn [map filter]. rewrite (proj2 (int_mem z mid)) by (apply H; left; auto). cbn [negb]. apply IH. intros; apply H; right; auto. }
      rewrite F0 by auto. cbn [map filter app]. destruct (gv_mem (GInt b) (map GInt mid)) eqn:Eb; [exfalso; apply Nb, int_mem; auto|]. reflexivity. }
    rewrite Fl. replace (Z.of_nat n - (Z.of_nat n - 1)) with 1 by lia. change (1 + 1) with 2. cbn [map]. rewrite map_app. reflexivity.
  Qed.
  Lemma ends : forall (zs : list Z), (2 <= length zs)%nat -> exists a mid b, zs = a :: mid ++ [b].
  Proof.
    intros [|a zs] H; [cbn in H; lia|]. destruct zs as [|y zs] using rev_ind; [cbn in H; lia|]. exists a, zs, y. reflexivity.
  Qed.
  (** Two generations without mutation lead back. *)
  Lemma there_and_back : forall zs, (2 <= length zs)%nat -> NoDup zs -> exists ws, cut_child (length zs) (map GInt zs) (map GInt zs) = map GInt ws /\
    cut_child (length zs) (map GInt ws) (map GInt ws) = map (@GInt NO) zs.
  Proof.
    intros zs H Nd. destruct (ends zs H) as (a & mid & b & ->). exists (b :: mid ++ [a]). split; [apply cut_self; auto|].
    replace (length (a :: mid ++ [b])) with (length (b :: mid ++ [a])) by (cbn [length]; rewrite !app_length; reflexivity). apply cut_self.
    eapply Permutation_NoDup; [|exact Nd]. change (a :: mid ++ [b]) with ([a] ++ mid ++ [b]). change (b :: mid ++ [a]) with ([b] ++ mid ++ [a]).
    rewrite (Permutation_app_comm mid [b]), (Permutation_app_comm mid [a]). cbn. constructor.
  Qed.
  Lemma move_to : forall (pre r1 r2 : list gv) x, move_gene (Z.of_nat (length pre + length r1)) (Z.of_nat (length pre)) (pre ++ r1 ++ x :: r2) = pre ++ x :: r1 ++ r2.
  Proof.
    intros pre r1 r2 x. unfold move_gene. rewrite !Nat2Z.id. rewrite <- app_length, app_assoc, nth_error_app2, Nat.sub_diag by lia. cbn [nth_error].
    unfold remove_at. replace (length (pre ++ r1)) with (length (pre ++ r1) + 0)%nat at 1 by lia. rewrite firstn_app_2. cbn [firstn]. rewrite app_nil_r.
    replace (skipn (S (length (pre ++ r1))) ((pre ++ r1) ++ x :: r2)) with r2.
    2:{ replace (S (length (pre ++ r1))) with (length (pre ++ r1) + 1)%nat by lia. rewrite skipn_app. rewrite skipn_all2 by lia. replace (length (pre ++ r1) + 1 - length (pre ++ r1))%nat with 1%nat by lia. reflexivity. }
    unfold list_insert. rewrite <- app_assoc. rewrite firstn_app, Nat.sub_diag, firstn_all, skipn_app, Nat.sub_diag, skipn_all. cbn [firstn skipn app]. rewrite app_nil_r. reflexivity.
  Qed.
  Lemma hops_between : forall q pre r, Permutation r q -> NoDup (pre ++ r) -> (2 <= length (pre ++ r))%nat -> hops (length (pre ++ r)) (2 * length q) (map GInt (pre ++ r)) (map GInt (pre ++ q)).
  Proof.
    induction q as [|x q IH]; intros pre r P Nd Hl.
    - apply Permutation_sym, Permutation_nil in P. subst. constructor.
    - assert (Ix : In x r) by (apply (Permutation_in _ (Permutation_sym P)); left; auto). apply in_split in Ix. destruct Ix as (r1 & r2 & ->).
      assert (P' : Permutation (r1 ++ r2) q) by (apply (Permutation_cons_inv (a := x)); rewrite <- P; apply Permutation_middle).
      assert (Pz : Permutation (pre ++ r1 ++ x :: r2) ((pre ++ [x]) ++ r1 ++ r2)) by (rewrite <- app_assoc; apply Permutation_app_head; cbn [app]; symmetry; apply Permutation_middle).
      destruct (there_and_back _ Hl Nd) as (ws & W1 & W2).
      replace (2 * length (x :: q))%nat with (S (S (2 * length q))) by (cbn [length]; lia).
      apply hops_S with (map GInt ws); [left; auto|]. apply hops_S with (map GInt ((pre ++ [x]) ++ r1 ++ r2)).
      + rewrite W2. destruct r1 as [|y r1]; [left; rewrite <- app_assoc; reflexivity|]. right.
        exists (Z.of_nat (length pre + length (y :: r1))), (Z.of_nat (length pre)). rewrite map_length, !app_length. cbn [length]. split; [lia|]. split; [lia|]. split; [lia|].
        pose proof (move_to (map GInt pre) (map GInt (y :: r1)) (map GInt r2) (GInt x)) as E. rewrite !map_length in E. cbn [length] in E.
        assert (E1 : map GInt (pre ++ (y :: r1) ++ x :: r2) = map GInt pre ++ map GInt (y :: r1) ++ @GInt NO x :: map GInt r2) by (rewrite !map_app; reflexivity).
        assert (E2 : map GInt ((pre ++ [x]) ++ (y :: r1) ++ r2) = map GInt pre ++ @GInt NO x :: map GInt (y :: r1) ++ map GInt r2) by (rewrite !map_app, <- app_assoc; reflexivity).
        rewrite E1, E2. symmetry. exact E.
      + rewrite (Permutation_length Pz). replace (pre ++ x :: q) with ((pre ++ [x]) ++ q) by (rewrite <- app_assoc; reflexivity).
        apply IH; auto; [eapply Permutation_NoDup; [exact Pz|auto]|rewrite <- (Permutation_length Pz); auto].
  Qed.
  (** All tours of all elements. *)
  Lemma full_tours : forall a b k x z, k = b - a + 1 -> 2 <= k -> arrangement a b k x -> arrangement a b k z -> hops (Z.to_nat k) (2 * Z.to_nat k) x z.
  Proof.
    intros a b k x z Ek Hk (xs & -> & Lx & Nx & Fx) (zs & -> & Lz & Nz & Fz).
    assert (P : forall ys, Z.of_nat (length ys) = k -> NoDup ys -> Forall (fun z => a <= z <= b) ys -> Permutation ys (zrange a (b + 1))).
    { intros ys L N F. apply NoDup_Permutation_bis; auto; [rewrite zrange_length; lia|]. intros y Hy. rewrite Forall_forall in F. apply in_zrange. specialize (F y Hy). lia. }
    assert (Px : Permutation xs zs) by (rewrite (P xs), (P zs); auto).
    pose proof (hops_between zs [] xs Px Nx ltac:(cbn [app]; lia)) as H. cbn [app] in H. replace (length xs) with (Z.to_nat k) in H by lia. replace (length zs) with (Z.to_nat k) in H by lia. exact H.
  Qed.
End TourPaths.
