(** Statements C49 and C50 on numbers with infinities: when a penalty raises
    OverflowError. *)
From Coq Require Import String.
From Coq Require Import ZArith QArith List Bool Lia Floats.SpecFloat.
From Verif Require Import Num State Binary Population GaData Penalty Float.
Import ListNotations.
Open Scope string_scope.
Open Scope list_scope.
Open Scope Z_scope.

Section Overflow.
  Context {NO : NumOps}.
  (** A finite number: one int() accepts. *)
  Definition bounded (x : num) : Prop := ntrunc x <> None.
  (** The power of a finite number is out of range. *)
  Definition overflows (x : num) (k : nat) : Prop := bounded x /\ ~ bounded (npow x k).
  (** What is raised to the power: max(0, v) for "<=", abs(v) for "!=". *)
  Definition amount (c : string) (v : num) : num := if String.eqb c "<=" then (if nltb nzero v then v else nzero) else nabs v.
  Definition some_overflow (k : nat) (conds : list string) (values : list num) : Prop :=
    exists c v, In (c, v) (combine conds values) /\ overflows (amount c v) k.

  Lemma pow_outcome : forall x k, (overflows x k /\ py_pow x k = inl OverflowError) \/ (~ overflows x k /\ py_pow x k = inr (npow x k)).
  Proof.
    intros x k. unfold py_pow, overflows, bounded. destruct (ntrunc x); [|right; split; [tauto|reflexivity]].
    destruct (ntrunc (npow x k)); [right|left]; (split; [|reflexivity]); [intros [_ N]; apply N; discriminate|split; [discriminate|tauto]].
  Qed.
  Lemma sum_outcome : forall k conds values acc, List.length conds = List.length values -> Forall (fun c => c = "<=" \/ c = "!=") conds ->
    (some_overflow k conds values /\ sum_violations (natural k) acc conds values = inl OverflowError) \/
    (~ some_overflow k conds values /\ exists x, sum_violations (natural k) acc conds values = inr x).
  Proof.
    intros k conds. induction conds as [|c conds IH]; intros [|v values] acc L F; try discriminate L; cbn [sum_violations].
    - right. split; [intros (c & v & [] & _)|eauto].
    - inversion F as [|? ? Hc F']; subst. inversion L as [L'].
      assert (E : sum_violations (natural k) acc (c :: conds) (v :: values) =
        match py_pow (amount c v) k with inl e => inl e | inr x => sum_violations (natural k) (nadd acc x) conds values end).
      { destruct Hc as [-> | ->]; reflexivity. }
      cbn [sum_violations] in E. rewrite E. clear E. destruct (pow_outcome (amount c v) k) as [[O ->]|[O ->]].
      + left. split; [|reflexivity]. exists c, v. split; [left; reflexivity|exact O].
      + destruct (IH values (nadd acc (npow (amount c v) k)) L' F') as [[(c' & v' & I & O') ->]|[N X]].
        * left. split; [|reflexivity]. exists c', v'. split; [right; exact I|exact O'].
        * right. split; [|exact X]. intros (c' & v' & [I|I] & O'); [inversion I; subst; contradiction|]. apply N. exists c', v'. split; auto.
  Qed.

  (** C49: with known signs the dynamic penalty raises exactly when a power of a finite
      amount of violation, or of a finite c * generation, is out of range. *)
  Theorem C49_overflow : forall delta c alpha betta conds values gen best, List.length conds = List.length values -> Forall (fun x => x = "<=" \/ x = "!=") conds ->
    (some_overflow betta conds values \/ overflows (nmul c (nofZ gen)) alpha -> penalty_execute (Dynamic delta c (natural alpha) (natural betta)) conds values gen best = inl OverflowError) /\
    (~ some_overflow betta conds values -> ~ overflows (nmul c (nofZ gen)) alpha -> exists p, penalty_execute (Dynamic delta c (natural alpha) (natural betta)) conds values gen best = inr p).
  Proof.
    intros delta c alpha betta conds values gen best L F. unfold penalty_execute. rewrite (proj2 (Nat.eqb_eq _ _) L). cbn [negb].
    destruct (sum_outcome betta conds values nzero L F) as [[O ->]|[N (x & ->)]]; [split; [reflexivity|contradiction]|].
    unfold natural. destruct (pow_outcome (nmul c (nofZ gen)) alpha) as [[O ->]|[O ->]]; split; [reflexivity|contradiction|tauto|eauto].
  Qed.
  (** C49 and C50 with any exponents: the first power that raises decides. *)
  Lemma sum_first : forall (power : expo) conds values acc j c v e, nth_error conds j = Some c -> nth_error values j = Some v -> Forall (fun c => c = "<=" \/ c = "!=") (firstn (S j) conds) ->
    power (amount c v) = inl e -> (forall i c' v', (i < j)%nat -> nth_error conds i = Some c' -> nth_error values i = Some v' -> exists y, power (amount c' v') = inr y) ->
    sum_violations power acc conds values = inl e.
  Proof.
    intros power conds. induction conds as [|c0 conds IH]; intros values acc j c v e Hc Hv F He Hb; [destruct j; discriminate Hc|]. destruct values as [|v0 values]; [destruct j; discriminate Hv|].
    assert (E : sum_violations power acc (c0 :: conds) (v0 :: values) = match power (amount c0 v0) with inl e => inl e | inr x => sum_violations power (nadd acc x) conds values end).
    { cbn [firstn] in F. inversion F as [|? ? K F']; subst. destruct K as [-> | ->]; reflexivity. }
    rewrite E. destruct j as [|j]; cbn [nth_error] in Hc, Hv; [injection Hc as ->; injection Hv as ->; rewrite He; reflexivity|].
    destruct (Hb O c0 v0) as (y & ->); [lia|reflexivity|reflexivity|]. apply (IH values (nadd acc y) j c v e); auto; [cbn [firstn] in F; now inversion F|]. intros i c' v' Hi. apply (Hb (S i)). lia.
  Qed.
  Theorem C49_raises : forall delta c alpha betta conds values gen best, List.length conds = List.length values ->
    (forall j cj v e, nth_error conds j = Some cj -> nth_error values j = Some v -> Forall (fun c => c = "<=" \/ c = "!=") (firstn (S j) conds) -> betta (amount cj v) = inl e ->
      (forall i c' v', (i < j)%nat -> nth_error conds i = Some c' -> nth_error values i = Some v' -> exists y, betta (amount c' v') = inr y) ->
      penalty_execute (Dynamic delta c alpha betta) conds values gen best = inl e /\
      forall b1 b2, penalty_execute (Adaptive delta b1 b2 betta) conds values gen best = inl e) /\
    (forall e, Forall (fun c => c = "<=" \/ c = "!=") conds -> (forall c' v', In (c', v') (combine conds values) -> exists y, betta (amount c' v') = inr y) -> alpha (nmul c (nofZ gen)) = inl e ->
      penalty_execute (Dynamic delta c alpha betta) conds values gen best = inl e).
  Proof.
    intros delta c alpha betta conds values gen best L. unfold penalty_execute. rewrite (proj2 (Nat.eqb_eq _ _) L). cbn [negb]. split.
    - intros j cj v e Hc Hv F He Hb. rewrite (sum_first betta conds values nzero j cj v e) by auto. split; reflexivity.
    - intros e F Hb Ha. assert (S1 : exists x, sum_violations betta nzero conds values = inr x).
      { clear Ha. generalize nzero. revert values L Hb. induction conds as [|c0 conds IH]; intros [|v0 values] L Hb acc; try discriminate L; [eexists; reflexivity|].
        inversion F as [|? ? K F']; subst. assert (E : sum_violations betta acc (c0 :: conds) (v0 :: values) = match betta (amount c0 v0) with inl e => inl e | inr x => sum_violations betta (nadd acc x) conds values end).
        { destruct K as [-> | ->]; reflexivity. }
        rewrite E. destruct (Hb c0 v0 (or_introl eq_refl)) as (y & ->). apply IH; auto. intros c' v' Hi. apply Hb. right. exact Hi. }
      destruct S1 as (x & ->). rewrite Ha. reflexivity.
  Qed.
  (** C50: so does the adaptive penalty for the amounts of violation. *)
  Theorem C50_overflow : forall delta b1 b2 betta conds values gen best, List.length conds = List.length values -> Forall (fun x => x = "<=" \/ x = "!=") conds ->
    (some_overflow betta conds values -> penalty_execute (Adaptive delta b1 b2 (natural betta)) conds values gen best = inl OverflowError) /\
    (~ some_overflow betta conds values -> gen = 0 \/ (exists i g, best = BSingle i g) -> neqb b1 nzero = false ->
      exists p, penalty_execute (Adaptive delta b1 b2 (natural betta)) conds values gen best = inr p).
  Proof.
    intros delta b1 b2 betta conds values gen best L F. unfold penalty_execute. rewrite (proj2 (Nat.eqb_eq _ _) L). cbn [negb].
    destruct (sum_outcome betta conds values nzero L F) as [[O ->]|[N (x & ->)]]; [split; [reflexivity|contradiction]|]. split; [contradiction|]. intros _ H Z0.
    destruct H as [->|(i & g & ->)]; [cbn [Z.eqb]; eauto|]. destruct (gen =? 0); [eauto|]. cbn [best_feasible]. destruct (feasible i); [|eauto].
    unfold py_div. rewrite Z0. eauto.
  Qed.
End Overflow.

(** Doubles: 10^200 squared is out of range, 10^100 squared is not; an infinite amount
    raises nothing. *)
Definition ten_to (k : Z) : @num Fops := @nofZ Fops (10 ^ k).
Example C49_overflow_case :
  @some_overflow Fops 2 ["!="; "<="] [ten_to 100; ten_to 200] /\
  ~ @some_overflow Fops 2 ["!="; "<="] [ten_to 100; @nopp Fops (ten_to 200)] /\
  ~ @some_overflow Fops 2 ["!="; "<="] [ten_to 100; S754_infinity false].
Proof.
  assert (F : forall (x : @num Fops), match @ntrunc Fops x with Some _ => true | None => false end = true -> @bounded Fops x) by (intros x H C; rewrite C in H; discriminate H).
  assert (I : forall (x : @num Fops), match @ntrunc Fops x with Some _ => true | None => false end = false -> ~ @bounded Fops x).
  { intros x H C. apply C. destruct (@ntrunc Fops x); [discriminate H|reflexivity]. }
  assert (P : forall c v w, In (c, v) (combine ["!="; "<="] [ten_to 100; w]) -> (c = "!=" /\ v = ten_to 100) \/ (c = "<=" /\ v = w)).
  { intros c v w. generalize (ten_to 100). intros x [E|[E|[]]]; [left|right]; split; first [exact (eq_sym (f_equal fst E))|exact (eq_sym (f_equal snd E))]. }
  split; [|split].
  - exists "<=", (ten_to 200). split; [right; left; reflexivity|]. split; [apply F|apply I]; vm_compute; reflexivity.
  - intros (c & v & Hi & B & O). apply O, F. destruct (P c v _ Hi) as [[-> ->]|[-> ->]]; vm_compute; reflexivity.
  - intros (c & v & Hi & B & O). destruct (P c v _ Hi) as [[-> ->]|[-> ->]]; [apply O, F|revert B; apply I]; vm_compute; reflexivity.
Qed.
Example C49_overflow_run : @penalty_execute Fops (Dynamic (@nofZ Fops 1) (@nofZ Fops 1) (natural 2) (natural 2)) ["!="; "<="] [ten_to 100; ten_to 200] 3 BNone = inl OverflowError.
Proof.
  refine (proj1 (@C49_overflow Fops _ _ _ _ _ _ _ _ _ _) (or_introl (proj1 C49_overflow_case))); [reflexivity|]. constructor; [right; reflexivity|]. constructor; [left; reflexivity|constructor].
Qed.
(** A negative exponent: 1 / x.  A condition that holds raises, and so does generation 0. *)
Definition inverse : @expo Qops := fun x => py_div (1%Q : @num Qops) x.
Example C49_negative_exponent : 
  @penalty_execute Qops (Dynamic (1%Q : @num Qops) (1%Q : @num Qops) (natural 2) inverse) ["<="; "!="] [(-3)%Q : @num Qops; 2%Q] 5 BNone = inl ZeroDivisionError /\
  @penalty_execute Qops (Dynamic (1%Q : @num Qops) (1%Q : @num Qops) inverse (natural 1)) ["<="; "!="] [3%Q : @num Qops; 2%Q] 0 BNone = inl ZeroDivisionError.
Proof.
  split.
  - refine (proj1 (proj1 (@C49_raises Qops _ _ _ _ ["<="; "!="] [(-3)%Q : @num Qops; 2%Q] 5 BNone eq_refl) 0%nat "<=" ((-3)%Q : @num Qops) ZeroDivisionError eq_refl eq_refl _ eq_refl _)); [constructor; [left; reflexivity|constructor]|].
    intros i c' v' Hi. lia.
  - refine (proj2 (@C49_raises Qops _ _ _ _ ["<="; "!="] [3%Q : @num Qops; 2%Q] 0 BNone eq_refl) ZeroDivisionError _ _ eq_refl); [constructor; [left; reflexivity|constructor; [right; reflexivity|constructor]]|].
    intros c' v' _. eexists. reflexivity.
Qed.
Print Assumptions C49_raises.
Print Assumptions C49_overflow.
Print Assumptions C50_overflow.
