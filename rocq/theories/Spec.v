(** Independent specifications used in the theorem statements.  Nothing here refers
    to the model's algorithms. *)
From Coq Require Import ZArith QArith Qround Qabs List Bool Permutation.
Import ListNotations.
Open Scope list_scope.
Open Scope Z_scope.

(** *** Binary coding *)

(** The number written by a bit string, most significant bit first. *)
Fixpoint base2 (bs : list bool) : Z :=
  match bs with
  | [] => 0
  | b :: bs' => (if b then 2 ^ Z.of_nat (List.length bs') else 0) + base2 bs'
  end.

(** A gene is (lower bound, upper bound, requested step). *)
Definition qgene := (Q * Q * Q)%type.
(** A legal gene: positive step not larger than the (positive) range. *)
Definition legal (g : qgene) : Prop :=
  match g with (lo, hi, st) => (0 < st)%Q /\ (st <= hi - lo)%Q end.
(** The requested number of grid intervals. *)
Definition points (g : qgene) : Z :=
  match g with (lo, hi, st) => Qfloor ((hi - lo) / st) end.
(** n bits are needed for the gene: 2^n - 1 intervals suffice, with fewer bits not. *)
Definition bits_for (g : qgene) (n : Z) : Prop :=
  1 <= n /\ points g <= 2 ^ n - 1 /\ (forall j, 0 <= j < n -> 2 ^ j - 1 < points g).
(** The i-th of the 2^n equidistant points of [lo, hi]. *)
Definition grid (g : qgene) (n i : Z) : Q :=
  match g with (lo, hi, _) => (lo + inject_Z i * ((hi - lo) / inject_Z (2 ^ n - 1)))%Q end.
(** The distance of neighbouring points. *)
Definition spacing (g : qgene) (n : Z) : Q :=
  match g with (lo, hi, _) => ((hi - lo) / inject_Z (2 ^ n - 1))%Q end.
Definition in_bounds (g : qgene) (x : Q) : Prop :=
  match g with (lo, hi, _) => (lo <= x)%Q /\ (x <= hi)%Q end.

(** Pointwise relations between three and four lists of the same length. *)
Inductive Forall3 {A B C} (R : A -> B -> C -> Prop) : list A -> list B -> list C -> Prop :=
| F3_nil : Forall3 R [] [] []
| F3_cons : forall a b c la lb lc, R a b c -> Forall3 R la lb lc ->
    Forall3 R (a :: la) (b :: lb) (c :: lc).
Inductive Forall4 {A B C D} (R : A -> B -> C -> D -> Prop) :
  list A -> list B -> list C -> list D -> Prop :=
| F4_nil : Forall4 R [] [] [] []
| F4_cons : forall a b c d la lb lc ld, R a b c d -> Forall4 R la lb lc ld ->
    Forall4 R (a :: la) (b :: lb) (c :: lc) (d :: ld).

(** The sum of a list of integers. *)
Fixpoint zsum (l : list Z) : Z := match l with [] => 0 | x :: l' => x + zsum l' end.

(** y is the decoded value of x on the n-bit grid of gene g: a grid point, the one
    nearest to x, at most half a step away, of two equally near ones the one with the
    even index, and x itself if x is a grid point. *)
Definition nearest_on_grid (g : qgene) (n : Z) (x y : Q) : Prop :=
  (exists i, 0 <= i <= 2 ^ n - 1 /\ y = grid g n i /\ ((Qabs (x - y) == spacing g n / 2)%Q -> Z.even i = true)) /\
  (Qabs (x - y) <= spacing g n / 2)%Q /\
  (forall j, 0 <= j <= 2 ^ n - 1 -> (Qabs (x - y) <= Qabs (x - grid g n j))%Q) /\
  ((exists j, 0 <= j <= 2 ^ n - 1 /\ (x == grid g n j)%Q) -> (y == x)%Q).

(** A gene with reversed bounds (lower bound above the upper one). *)
Definition reversed (g : qgene) : Prop :=
  match g with (lo, hi, st) => (hi < lo)%Q /\ (0 < st)%Q /\ (st <= lo - hi)%Q end.
(** A gene whose step cannot be used: not positive, or larger than the distance of the bounds. *)
Definition unusable (g : qgene) : Prop :=
  match g with (lo, hi, st) => (st <= 0)%Q \/ (Qabs (hi - lo) < st)%Q end.
(** Number of bits of any usable gene: that of the gene with the bounds in order. *)
Definition ordered_gene (g : qgene) : qgene :=
  match g with (lo, hi, st) => if Qle_bool lo hi then (lo, hi, st) else (hi, lo, st) end.

(** Pairwise different with respect to a boolean equality. *)
Inductive dup_free {A} (eqb : A -> A -> bool) : list A -> Prop :=
| DF_nil : dup_free eqb []
| DF_cons : forall x l, Forall (fun y => eqb x y = false) l -> dup_free eqb l -> dup_free eqb (x :: l).
(** x equals some element of l. *)
Definition memE {A} (eqb : A -> A -> bool) (x : A) (l : list A) : Prop := Exists (fun y => eqb x y = true) l.

(** [Kept P l l']: l' consists of the elements of l that satisfy P, in their order. *)
Inductive Kept {A} (P : A -> Prop) : list A -> list A -> Prop :=
| Kept_nil : Kept P [] []
| Kept_in : forall x l l', P x -> Kept P l l' -> Kept P (x :: l) (x :: l')
| Kept_out : forall x l l', ~ P x -> Kept P l l' -> Kept P (x :: l) l'.

(** Offspring of two parents of length n, by kind of crossover. *)
Definition one_point_child {A} (n : nat) (p1 p2 c : list A) : Prop :=
  exists k, (1 <= k <= n - 1)%nat /\ c = firstn k p1 ++ skipn k p2.
Definition two_point_child {A} (n : nat) (p1 p2 c : list A) : Prop :=
  exists i j, (1 <= i < j)%nat /\ (j <= n - 1)%nat /\ c = firstn i p1 ++ firstn (j - i) (skipn i p2) ++ skipn j p1.
Definition uniform_child {A} (n : nat) (p1 p2 c : list A) : Prop :=
  List.length c = n /\
  forall i, (i < n)%nat -> nth_error c i = nth_error p1 i \/ nth_error c i = nth_error p2 i.
(** The child keeps positions i..j-1 of p1; read cyclically from position j it
    continues with the genes of p2 that are not in this segment. *)
Definition order_child_at {A} (eqb : A -> A -> bool) (i j : nat) (p1 p2 c : list A) : Prop :=
  let seg := firstn (j - i) (skipn i p1) in
  List.length c = List.length p1 /\
  firstn (j - i) (skipn i c) = seg /\
  exists r, Kept (fun x => ~ memE eqb x seg) p2 r /\
            skipn j c ++ firstn i c = firstn (List.length p1 - (j - i)) r.
Definition order_child_of {A} (eqb : A -> A -> bool) (n : nat) (p1 p2 c : list A) : Prop :=
  exists i j, (1 <= i < j)%nat /\ (j <= n - 1)%nat /\ order_child_at eqb i j p1 p2 c.

(** The documented moves of the combinatorial mutations. *)
Definition moved {A} (g c : list A) : Prop :=
  exists i j x, (i < List.length g)%nat /\ (j < List.length g)%nat /\ i <> j /\ nth_error g i = Some x /\
    let rest := firstn i g ++ skipn (S i) g in c = firstn j rest ++ x :: skipn j rest.
Definition swapped {A} (g c : list A) : Prop :=
  exists i j, (i < List.length g)%nat /\ (j < List.length g)%nat /\ i <> j /\
    List.length c = List.length g /\ nth_error c i = nth_error g j /\ nth_error c j = nth_error g i /\
    forall p, p <> i -> p <> j -> nth_error c p = nth_error g p.
Definition inverted {A} (g c : list A) : Prop :=
  exists i j, (i < j)%nat /\ (j < List.length g)%nat /\
    c = firstn i g ++ rev (firstn (S j - i) (skipn i g)) ++ skipn (S j) g.
Definition shifted {A} (g c : list A) : Prop :=
  exists len i j, (1 <= len)%nat /\ (len + 2 <= List.length g)%nat /\ (i + len <= List.length g)%nat /\
    (j + len <= List.length g)%nat /\ i <> j /\
    let rest := firstn i g ++ skipn (i + len) g in
    c = firstn j rest ++ firstn len (skipn i g) ++ skipn j rest.

(** *** Proportional selection *)
(** Sum of a list of rationals, and the cumulative share of the first k entries. *)
Fixpoint qsum (l : list Q) : Q := match l with [] => 0%Q | x :: r => (x + qsum r)%Q end.
Definition cshare (ws : list Q) (k : nat) : Q := (qsum (firstn k ws) / qsum ws)%Q.
(** The share of entry i. *)
Definition share (ws : list Q) (i : nat) : Q := (nth i ws 0 / qsum ws)%Q.

(** Mid-rank of entry j: the number of smaller entries plus half of one more than the
    number of equal ones. *)
Definition count_if {A} (f : A -> bool) (l : list A) : Z := Z.of_nat (List.length (filter f l)).
Definition midrank (xs : list Q) (x : Q) : Q :=
  (inject_Z (count_if (fun y => negb (Qle_bool x y)) xs) + inject_Z (count_if (Qeq_bool x) xs + 1) / 2)%Q.
(** The average of the 1-based positions of the entries equal to x. *)
Definition positions_of (xs : list Q) (x : Q) : list Z :=
  map (fun k => Z.of_nat k + 1) (filter (fun k => Qeq_bool x (nth k xs 0%Q)) (seq 0 (List.length xs))).
Definition mean_position (xs : list Q) (x : Q) : Q :=
  (inject_Z (zsum (positions_of xs x)) / inject_Z (Z.of_nat (List.length (positions_of xs x))))%Q.
Definition qascending (xs : list Q) : Prop := forall i j, (i <= j < List.length xs)%nat -> (nth i xs 0 <= nth j xs 0)%Q.
