(** Statement C77: the static penalty, exactly. *)
From Coq Require Import String.
From Coq Require Import ZArith QArith List Bool Lia.
From Verif Require Import Num State Binary GaData Penalty Demo.
Import ListNotations.
Open Scope list_scope.
Open Scope Z_scope.

Section C77.
  Context {NO : NumOps}.
  (** The entry of a dictionary. *)
  Definition entry {A} (d : pydict A) (k : Z) (l : list A) : Prop := exists d1 d2, d = d1 ++ (k, l) :: d2 /\ ~ In k (map fst d1).
  Definition no_entry {A} (d : pydict A) (k : Z) : Prop := ~ In k (map fst d).
  Lemma dict_entry : forall {A} (d : pydict A) k, match dict_get d k with inr l => entry d k l | inl e => e = KeyError /\ no_entry d k end.
  Proof.
    intros A d k. induction d as [|[k' l] d IH]; cbn [dict_get]; [split; [reflexivity|intros []]|].
    destruct (Z.eqb_spec k k') as [<-|N]; [exists [], d; split; [reflexivity|intros []]|].
    destruct (dict_get d k) as [e|l'].
    - destruct IH as [-> H]. split; auto. intros [C|C]; cbn in *; [congruence|auto].
    - destruct IH as (d1 & d2 & -> & H). exists ((k', l) :: d1), d2. split; [reflexivity|]. intros [C|C]; cbn in *; [congruence|auto].
  Qed.
  Lemma entry_get : forall {A} (d : pydict A) k l, entry d k l -> dict_get d k = inr l.
  Proof.
    intros A d k l (d1 & d2 & -> & H). induction d1 as [|[k' l'] d1 IH]; cbn [app dict_get]; [rewrite Z.eqb_refl; auto|].
    destruct (Z.eqb_spec k k') as [<-|N]; [exfalso; apply H; left; auto|]. apply IH. intros C. apply H. right. exact C.
  Qed.
  Lemma no_entry_get : forall {A} (d : pydict A) k, no_entry d k -> dict_get d k = inl KeyError.
  Proof.
    intros A d k H. pose proof (dict_entry d k) as E. destruct (dict_get d k) as [e|l]; [destruct E as [-> _]; auto|].
    destruct E as (d1 & d2 & -> & _). exfalso. apply H. unfold no_entry. rewrite map_app. apply in_or_app. right. left. reflexivity.
  Qed.

  Variables (ei : pydict (num * num)) (ec : pydict num) (ii : pydict (num * num)).
  Definition within (v : num) (iv : num * num) : Prop := nltb (fst iv) v = true /\ nltb v (snd iv) = true.
  (** What the loop does not look at: an equality whose value is not 0, an inequality
      whose value is at most 0. *)
  Definition skipped (c : string) (v : num) : Prop := c = "!="%string /\ neqb v nzero = false \/ c = "<="%string /\ nleb v nzero = true.
  (** What it does: with the intervals [d] and the amount [w]. *)
  Definition weighed (c : string) (v : num) (d : pydict (num * num)) (w : num) : Prop :=
    c = "!="%string /\ neqb v nzero = true /\ d = ei /\ w = nabs v \/ c = "<="%string /\ nleb v nzero = false /\ d = ii /\ w = nmax0 v.
  (** The value of the local variable res after condition [c] number [i] with value [v],
      [prev] being its value before; or the exception. *)
  Inductive used (i : Z) (prev : option num) (c : string) (v : num) : exn + num -> Prop :=
  | u_sign : c <> "!="%string -> c <> "<="%string -> used i prev c v (inl bad_sign)
  | u_skipped : skipped c v -> used i prev c v (inr nzero)
  | u_no_intervals d w : weighed c v d w -> no_entry d i -> used i prev c v (inl KeyError)
  | u_unbound d w : weighed c v d w -> entry d i [] -> prev = None -> used i prev c v (inl UnboundLocalError)
  | u_kept d w x : weighed c v d w -> entry d i [] -> prev = Some x -> used i prev c v (inr x)
  | u_weighed d w l cl k : weighed c v d w -> entry d i l -> l <> [] -> Forall (within v) l -> entry ec i cl -> nth_error cl (List.length l - 1) = Some k -> used i prev c v (inr (nmul k w))
  | u_outside d w pre iv post : weighed c v d w -> entry d i (pre ++ iv :: post) -> Forall (within v) pre -> ~ within v iv ->
      (pre = [] \/ exists cl, entry ec i cl /\ (List.length pre <= List.length cl)%nat) -> used i prev c v (inl (PyException "unexpected intervals"))
  | u_no_coefs d w iv post : weighed c v d w -> entry d i (iv :: post) -> within v iv -> no_entry ec i -> used i prev c v (inl KeyError)
  | u_few_coefs d w pre iv post cl : weighed c v d w -> entry d i (pre ++ iv :: post) -> Forall (within v) pre -> within v iv ->
      entry ec i cl -> List.length cl = List.length pre -> used i prev c v (inl IndexError).

  Lemma within_dec : forall v iv, (nltb (fst iv) v && nltb v (snd iv) = true /\ within v iv) \/ (nltb (fst iv) v && nltb v (snd iv) = false /\ ~ within v iv).
  Proof. intros v iv. unfold within. destruct (nltb (fst iv) v), (nltb v (snd iv)); cbn; intuition congruence. Qed.
  Lemma py_nth_at : forall {A} (l : list A) n, py_nth l (Z.of_nat n) = nth_error l n.
  Proof.
    intros A l n. unfold py_nth. destruct (Z.ltb_spec (Z.of_nat n) 0); [lia|]. rewrite Nat2Z.id.
    destruct (Z.leb_spec (Z.of_nat (List.length l)) (Z.of_nat n)); [|rewrite Bool.orb_false_r; destruct (Z.ltb_spec (Z.of_nat n) 0); [lia|reflexivity]].
    rewrite Bool.orb_true_r. symmetry. apply nth_error_None. lia.
  Qed.
  (** The loop over the intervals, [n] of them done. *)
  Lemma loop_used : forall cl v w l n res, (n <= List.length cl)%nat ->
    match interval_loop (inr cl) v w (Z.of_nat n) l res with
    | inr r => (l = [] /\ r = res) \/ (l <> [] /\ Forall (within v) l /\ exists k, nth_error cl (n + List.length l - 1) = Some k /\ r = Some (nmul k w))
    | inl e => (exists pre iv post, l = pre ++ iv :: post /\ Forall (within v) pre /\ ~ within v iv /\ (n + List.length pre <= List.length cl)%nat /\ e = PyException "unexpected intervals") \/
               (exists pre iv post, l = pre ++ iv :: post /\ Forall (within v) pre /\ within v iv /\ List.length cl = (n + List.length pre)%nat /\ e = IndexError)
    end.
  Proof.
    intros cl v w l. induction l as [|[lo hi] l IH]; intros n res Hn; cbn [interval_loop]; [left; auto|].
    destruct (within_dec v (lo, hi)) as [[E W]|[E W]]; cbn [fst snd] in E; rewrite E.
    - rewrite py_nth_at. destruct (nth_error cl n) as [k|] eqn:Ek.
      + assert (n < List.length cl)%nat by (apply nth_error_Some; congruence). specialize (IH (S n) (Some (nmul k w)) ltac:(lia)). replace (Z.of_nat n + 1) with (Z.of_nat (S n)) by lia.
        destruct (interval_loop (inr cl) v w (Z.of_nat (S n)) l (Some (nmul k w))) as [e|r].
        * destruct IH as [(pre & iv & post & -> & F & N & L & ->)|(pre & iv & post & -> & F & N & L & ->)]; [left|right]; exists ((lo, hi) :: pre), iv, post; cbn [List.length]; (split; [reflexivity|split; [constructor; auto|split; [exact N|split; [lia|reflexivity]]]]).
        * right. split; [discriminate|]. destruct IH as [[-> ->]|(Nl & F & k' & Hk & ->)].
          -- split; [auto|]. exists k. split; auto. cbn [List.length]. replace (n + 1 - 1)%nat with n by lia. auto.
          -- split; [auto|]. exists k'. split; auto. cbn [List.length]. replace (n + S (List.length l) - 1)%nat with (S n + List.length l - 1)%nat by lia. auto.
      + right. apply nth_error_None in Ek. exists [], (lo, hi), l. cbn [List.length app]. repeat split; auto; try apply W. lia.
    - left. exists [], (lo, hi), l. cbn [List.length app]. repeat split; auto. lia.
  Qed.
  (** One condition of the loop. *)
  Definition one (i : Z) (prev : option num) (c : string) (v : num) : exn + num :=
    if String.eqb c "!=" then
      if negb (neqb v nzero) then inr nzero
      else match dict_get ei i with inl e => inl e | inr l => match interval_loop (dict_get ec i) v (nabs v) 0 l prev with inl e => inl e | inr None => inl UnboundLocalError | inr (Some x) => inr x end end
    else if String.eqb c "<=" then
      if nleb v nzero then inr nzero
      else match dict_get ii i with inl e => inl e | inr l => match interval_loop (dict_get ec i) v (nmax0 v) 0 l prev with inl e => inl e | inr None => inl UnboundLocalError | inr (Some x) => inr x end end
    else inl bad_sign.
  Lemma one_weighed : forall i prev c v d w, weighed c v d w ->
    used i prev c v (match dict_get d i with inl e => inl e | inr l => match interval_loop (dict_get ec i) v w 0 l prev with inl e => inl e | inr None => inl UnboundLocalError | inr (Some x) => inr x end end).
  Proof.
    intros i prev c v d w W. pose proof (dict_entry d i) as Ed. destruct (dict_get d i) as [e|l]; [destruct Ed as [-> Ed]; eapply u_no_intervals; eauto|].
    destruct l as [|iv l]; [cbn [interval_loop]; destruct prev as [x|]; [eapply u_kept; eauto|eapply u_unbound; eauto]|].
    pose proof (dict_entry ec i) as Ec. destruct (dict_get ec i) as [e|cl].
    - destruct Ec as [-> Ec]. destruct iv as [lo hi]. cbn [interval_loop]. destruct (within_dec v (lo, hi)) as [[E N]|[E N]]; cbn [fst snd] in E; rewrite E.
      + eapply u_no_coefs; eauto.
      + eapply (u_outside _ _ _ _ _ _ [] (lo, hi) l); eauto.
    - pose proof (loop_used cl v w (iv :: l) 0 prev ltac:(lia)) as H. change (Z.of_nat 0) with 0 in H. destruct (interval_loop (inr cl) v w 0 (iv :: l) prev) as [e|r].
      + destruct H as [(pre & iv' & post & E & F & N & L & ->)|(pre & iv' & post & E & F & N & L & ->)]; rewrite E in Ed; cbn [Nat.add] in L; [eapply u_outside; eauto|eapply u_few_coefs; eauto].
      + destruct H as [[C _]|(Nl & F & k & Hk & ->)]; [discriminate|]. cbn [Nat.add] in Hk. eapply u_weighed; eauto.
  Qed.
  Lemma one_used : forall i prev c v, used i prev c v (one i prev c v).
  Proof.
    intros i prev c v. unfold one. destruct (String.eqb c "!=") eqn:E1; [apply String.eqb_eq in E1|].
    - destruct (neqb v nzero) eqn:E; cbn [negb]; [|apply u_skipped; left; auto]. apply one_weighed. left; auto.
    - destruct (String.eqb c "<=") eqn:E2; [apply String.eqb_eq in E2|apply u_sign; apply String.eqb_neq; auto].
      destruct (nleb v nzero) eqn:E; [apply u_skipped; right; auto|]. apply one_weighed. right; auto.
  Qed.
  Lemma weighed_not_skipped : forall c v d w, weighed c v d w -> skipped c v -> False.
  Proof. intros c v d w [(H & H1 & _)|(H & H1 & _)] [[H' H2]|[H' H2]]; congruence. Qed.
  Lemma weighed_unique : forall c v d w d' w', weighed c v d w -> weighed c v d' w' -> d = d' /\ w = w'.
  Proof. intros c v d w d' w' [(H & _ & -> & ->)|(H & _ & -> & ->)] [(H' & _ & -> & ->)|(H' & _ & -> & ->)]; try congruence; auto. Qed.
  Lemma weighed_sign : forall c v d w, weighed c v d w -> c <> "!="%string -> c <> "<="%string -> False.
  Proof. intros c v d w [(-> & _)|(-> & _)]; congruence. Qed.
  Lemma one_of_weighed : forall i prev c v d w, weighed c v d w ->
    one i prev c v = match dict_get d i with inl e => inl e | inr l => match interval_loop (dict_get ec i) v w 0 l prev with inl e => inl e | inr None => inl UnboundLocalError | inr (Some x) => inr x end end.
  Proof. intros i prev c v d w [(-> & E & -> & ->)|(-> & E & -> & ->)]; unfold one; cbn [String.eqb Ascii.eqb Bool.eqb]; rewrite E; reflexivity. Qed.
  Lemma loop_runs : forall cl v w pre n post res, Forall (within v) pre -> (n + List.length pre <= List.length cl)%nat ->
    exists res', interval_loop (inr cl) v w (Z.of_nat n) (pre ++ post) res = interval_loop (inr cl) v w (Z.of_nat (n + List.length pre)) post res' /\
      (pre = [] -> res' = res) /\ (pre <> [] -> exists k, nth_error cl (n + List.length pre - 1) = Some k /\ res' = Some (nmul k w)).
  Proof.
    intros cl v w pre. induction pre as [|[lo hi] pre IH]; intros n post res F L; cbn [app List.length].
    - exists res. rewrite Nat.add_0_r. split; [reflexivity|]. split; [auto|congruence].
    - inversion F as [|? ? [W1 W2] F']; subst. cbn [fst snd] in W1, W2. cbn [interval_loop]. rewrite W1, W2. cbn [andb]. rewrite py_nth_at.
      destruct (nth_error cl n) as [k|] eqn:Ek; [|apply nth_error_None in Ek; cbn [List.length] in L; lia].
      replace (Z.of_nat n + 1) with (Z.of_nat (S n)) by lia. destruct (IH (S n) post (Some (nmul k w)) F') as (res' & E & H1 & H2); [cbn [List.length] in L; lia|].
      exists res'. split; [rewrite E; f_equal; lia|]. split; [discriminate|]. intros _. destruct pre as [|iv pre].
      + exists k. rewrite (H1 eq_refl). split; auto. cbn [List.length]. replace (n + 1 - 1)%nat with n by lia. auto.
      + destruct H2 as (k' & Hk & ->); [discriminate|]. exists k'. split; auto. rewrite <- Hk. f_equal. lia.
  Qed.
  (** The rules leave exactly one possibility, and it is the code's. *)
  Lemma used_one : forall i prev c v o, used i prev c v o -> one i prev c v = o.
  Proof.
    intros i prev c v o H. destruct H as [N1 N2|Sk|d w W N|d w W E P|d w x W E P|d w l cl k W E Nl F Ec Hk|d w pre iv post W E F N H|d w iv post W E F N|d w pre iv post cl W E F Wi Ec L].
    - unfold one. rewrite (proj2 (String.eqb_neq _ _) N1), (proj2 (String.eqb_neq _ _) N2). reflexivity.
    - unfold one. destruct Sk as [[-> E]|[-> E]]; cbn [String.eqb Ascii.eqb Bool.eqb]; rewrite E; reflexivity.
    - rewrite (one_of_weighed _ _ _ _ _ _ W), (no_entry_get _ _ N). reflexivity.
    - rewrite (one_of_weighed _ _ _ _ _ _ W), (entry_get _ _ _ E), P. reflexivity.
    - rewrite (one_of_weighed _ _ _ _ _ _ W), (entry_get _ _ _ E), P. reflexivity.
    - rewrite (one_of_weighed _ _ _ _ _ _ W), (entry_get _ _ _ E), (entry_get _ _ _ Ec).
      destruct (loop_runs cl v w l 0 [] prev F) as (res' & R & _ & K); [cbn [Nat.add]; assert (List.length l - 1 < List.length cl)%nat by (apply nth_error_Some; congruence); destruct l; [congruence|cbn [List.length] in *; lia]|].
      rewrite app_nil_r in R. change (Z.of_nat 0) with 0 in R. rewrite R. cbn [interval_loop]. destruct (K Nl) as (k' & Hk' & ->). cbn [Nat.add] in Hk'. rewrite Hk in Hk'. inversion Hk'; subst. reflexivity.
    - rewrite (one_of_weighed _ _ _ _ _ _ W), (entry_get _ _ _ E). destruct iv as [lo hi].
      assert (B : nltb lo v && nltb v hi = false) by (destruct (within_dec v (lo, hi)) as [[? C]|[C _]]; [contradiction|exact C]).
      destruct H as [->|(cl & Ec & L)]; [cbn [app interval_loop]; rewrite B; reflexivity|]. rewrite (entry_get _ _ _ Ec).
      destruct (loop_runs cl v w pre 0 ((lo, hi) :: post) prev F L) as (res' & R & _). change (Z.of_nat 0) with 0 in R. rewrite R. cbn [interval_loop]. rewrite B. reflexivity.
    - rewrite (one_of_weighed _ _ _ _ _ _ W), (entry_get _ _ _ E), (no_entry_get _ _ N). destruct iv as [lo hi], F as [F1 F2]. cbn [fst snd interval_loop] in *. rewrite F1, F2. reflexivity.
    - rewrite (one_of_weighed _ _ _ _ _ _ W), (entry_get _ _ _ E), (entry_get _ _ _ Ec). destruct iv as [lo hi], Wi as [F1 F2]. cbn [fst snd] in *.
      destruct (loop_runs cl v w pre 0 ((lo, hi) :: post) prev F) as (res' & R & _); [lia|]. change (Z.of_nat 0) with 0 in R. rewrite R. cbn [interval_loop Nat.add]. rewrite F1, F2, py_nth_at, <- L. cbn [andb].
      rewrite (proj2 (nth_error_None cl (List.length cl)) (le_n _)). reflexivity.
  Qed.
  Theorem C77_rules : forall i prev c v, exists o, used i prev c v o /\ forall o', used i prev c v o' -> o' = o.
  Proof. intros. exists (one i prev c v). split; [apply one_used|]. intros o' H. symmetry. apply used_one. exact H. Qed.

  (** The loop: [runs i prev acc conds values o]. *)
  Inductive sums : Z -> option num -> num -> list string -> list num -> exn + num -> Prop :=
  | s_done i prev acc : sums i prev acc [] [] (inr acc)
  | s_skip i prev acc c cs v vs o : skipped c v -> sums (i + 1) (Some nzero) acc cs vs o -> sums i prev acc (c :: cs) (v :: vs) o
  | s_add i prev acc c cs v vs x y o : ~ skipped c v -> used i prev c v (inr x) -> py_pow x 2 = inr y ->
      sums (i + 1) (Some x) (nadd acc y) cs vs o -> sums i prev acc (c :: cs) (v :: vs) o
  | s_overflow i prev acc c cs v vs x e : ~ skipped c v -> used i prev c v (inr x) -> py_pow x 2 = inl e -> sums i prev acc (c :: cs) (v :: vs) (inl e)
  | s_raise i prev acc c cs v vs e : used i prev c v (inl e) -> sums i prev acc (c :: cs) (v :: vs) (inl e).
  Lemma skipped_dec : forall c v, skipped c v \/ ~ skipped c v.
  Proof.
    intros c v. destruct (String.eqb_spec c "!="%string) as [->|N1].
    - destruct (neqb v nzero) eqn:E; [right|left; left; auto]. intros [[_ H]|[H _]]; [congruence|discriminate].
    - destruct (String.eqb_spec c "<="%string) as [->|N2]; [|right; intros [[H _]|[H _]]; auto].
      destruct (nleb v nzero) eqn:E; [left; right; auto|right]. intros [[H _]|[_ H]]; [discriminate|congruence].
  Qed.
  Lemma static_step : forall i prev acc c cs v vs,
    static_sum ei ec ii i prev acc (c :: cs) (v :: vs) =
    if (String.eqb c "!=" && negb (neqb v nzero)) || (negb (String.eqb c "!=") && String.eqb c "<=" && nleb v nzero) then static_sum ei ec ii (i + 1) (Some nzero) acc cs vs
    else match one i prev c v with inl e => inl e | inr x => match py_pow x 2 with inl e => inl e | inr y => static_sum ei ec ii (i + 1) (Some x) (nadd acc y) cs vs end end.
  Proof.
    intros. cbn [static_sum]. unfold one. destruct (String.eqb c "!="); cbn [andb negb orb].
    - destruct (neqb v nzero); cbn [negb orb]; [|reflexivity]. destruct (dict_get ei i); [reflexivity|]. destruct (interval_loop _ _ _ _ _ _) as [|[x|]]; reflexivity.
    - destruct (String.eqb c "<="); cbn [andb]; [|reflexivity]. destruct (nleb v nzero); [reflexivity|]. destruct (dict_get ii i); [reflexivity|]. destruct (interval_loop _ _ _ _ _ _) as [|[x|]]; reflexivity.
  Qed.
  Lemma skipped_test : forall c v, (String.eqb c "!=" && negb (neqb v nzero)) || (negb (String.eqb c "!=") && String.eqb c "<=" && nleb v nzero) = true <-> skipped c v.
  Proof.
    intros c v. unfold skipped. destruct (String.eqb_spec c "!="%string) as [->|N1]; cbn [andb negb orb].
    - rewrite Bool.orb_false_r, Bool.negb_true_iff. intuition congruence.
    - destruct (String.eqb_spec c "<="%string) as [->|N2]; cbn [andb]; intuition congruence.
  Qed.
  Lemma sums_static : forall cs vs i prev acc o, List.length cs = List.length vs -> sums i prev acc cs vs o <-> static_sum ei ec ii i prev acc cs vs = o.
  Proof.
    induction cs as [|c cs IH]; intros [|v vs] i prev acc o L; try discriminate.
    - cbn [static_sum]. split; [intros H; inversion H; auto|intros <-; constructor].
    - assert (L' : List.length cs = List.length vs) by (cbn in L; lia). rewrite static_step.
      destruct (skipped_dec c v) as [Sk|Sk]; [pose proof (proj2 (skipped_test c v) Sk) as T; rewrite T|
        destruct (_ || _) eqn:T; [apply skipped_test in T; contradiction|]].
      + rewrite <- IH by auto. split; [|apply s_skip; auto]. intros H.
        inversion H as [|? ? ? ? ? ? ? ? _ H'|? ? ? ? ? ? ? ? ? ? C|? ? ? ? ? ? ? ? ? C|? ? ? ? ? ? ? ? U]; subst; auto; try contradiction.
        apply used_one in U. rewrite (used_one _ _ _ _ _ (u_skipped i prev c v Sk)) in U. discriminate.
      + split.
        * intros H. inversion H as [|? ? ? ? ? ? ? ? C _|? ? ? ? ? ? ? x y ? _ U P H'|? ? ? ? ? ? ? x e _ U P|? ? ? ? ? ? ? e U]; subst; try contradiction; apply used_one in U; rewrite U; auto.
          -- rewrite P. apply IH; auto.
          -- rewrite P. reflexivity.
        * pose proof (one_used i prev c v) as U. destruct (one i prev c v) as [e|x]; [intros <-; apply s_raise; auto|].
          destruct (py_pow x 2) as [e|y] eqn:P; [intros <-; eapply s_overflow; eauto|]. intros H. apply IH in H; auto. eapply s_add; eauto.
  Qed.
  (** The static penalty, for every configuration: the numbers of conditions and values
      must be equal, then the sum or the exception is the one of the rules. *)
  Theorem C77_penalty : forall ic conds values gen best o,
    penalty_execute (Static ei ec ii ic) conds values gen best = o <->
    (List.length conds <> List.length values /\ o = inl (PyException "numbers of values and conditional must be equals")) \/
    (List.length conds = List.length values /\ sums 0 None nzero conds values o).
  Proof.
    intros ic conds values gen best o. unfold penalty_execute. destruct (Nat.eqb_spec (List.length conds) (List.length values)) as [L|L]; cbn [negb].
    - rewrite <- (sums_static conds values 0 None nzero o L). intuition.
    - intuition.
  Qed.
End C77.

Section Examples77.
  Local Existing Instance Qops.
  Open Scope Q_scope.
  (** The second inequality has no intervals: the value 15 of the first is counted
      twice. *)
  Definition twice : penalty := Static [] [(0%Z, [5 : @num Qops])] [(0%Z, [(0, 10)]); (1%Z, [])] [].
  Example C77_kept : exists p, penalty_execute twice ["<="; "<="]%string [3; 8] 0 BNone = inr p /\ p == 15 ^ 2 + 15 ^ 2.
  Proof. eexists. split; reflexivity. Qed.
  Example C77_kept_rule : used [] [(0%Z, [5 : @num Qops])] [(0%Z, [(0, 10)]); (1%Z, [])] 1 (Some (15 : @num Qops)) "<=" (8 : @num Qops) (inr (15 : @num Qops)).
  Proof.
    eapply (@u_kept Qops); [right; repeat split; reflexivity| |reflexivity]. exists [(0%Z, [(0, 10)])], []. split; [reflexivity|]. cbn. intuition discriminate.
  Qed.
  (** Satisfied first, then no intervals: 0; as the first condition: UnboundLocalError. *)
  Example C77_zero : (exists p, penalty_execute twice ["<="; "<="]%string [-3; 8] 0 BNone = inr p /\ p == 0) /\
    penalty_execute (Static [] [] [(0%Z, [])] []) ["<="]%string [8 : @num Qops] 0 BNone = inl UnboundLocalError.
  Proof. split; [eexists; split; reflexivity|reflexivity]. Qed.
  Example C77_errors : penalty_execute (Static [] [] [(0%Z, [(0, 10)])] []) ["<="]%string [8 : @num Qops] 0 BNone = inl KeyError /\
    penalty_execute (Static [] [(0%Z, [])] [(0%Z, [(0, 10)])] []) ["<="]%string [8 : @num Qops] 0 BNone = inl IndexError /\
    penalty_execute (Static [] [(0%Z, [])] [(0%Z, [(0, 5); (0, 10)])] []) ["<="]%string [8 : @num Qops] 0 BNone = inl (PyException "unexpected intervals").
  Proof. repeat split; reflexivity. Qed.
End Examples77.

Print Assumptions C77_rules. Print Assumptions C77_penalty.
