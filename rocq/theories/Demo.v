(** Concrete states used by the examples beside the theorems (exact arithmetic). *)
From Coq Require Import ZArith QArith List Bool.
From Verif Require Import Num State Rnd Binary Population GaData.
Import ListNotations.
Open Scope Z_scope.
Local Existing Instance Qops.

(** An individual with the given genotype and score. *)
Definition ind (g : list gv) (sc : sval) : individ := mkInd g None sc SVNone true None None.
(** A heap holding the given individuals at references 0, 1, ...; the generator
    produces the given raw values and then zeros; seed(None) leaves zeros. *)
Definition world (inds : list individ) (draws : list Z) : st :=
  mkSt (fun r => nth r inds blank_individ) (length inds) (papp draws (fun _ => 0))
       (fun _ _ => 0) None (fun _ _ => 0) [].
(** The same with an entropy source whose successive generators produce the given
    values. *)
Definition world_ent (inds : list individ) (draws : list (list Z)) : st :=
  mkSt (fun r => nth r inds blank_individ) (length inds) (fun _ => 0)
       (fun k => papp (nth k draws []) (fun _ => 0)) None (fun _ _ => 0) [].
Definition ints (l : list Z) : list gv := map GInt l.
Definition cat_pop (n : nat) : pop := mkPop (seq 0 n) false (Z.of_nat n) (GenCat []) [].
Definition gd_of (p : pop) : gadata := new_gadata false 10 (8#10) (Some 10) p.
Definition q (x : Q) : sval := SV1 x.
(** The result of a run, and the result together with an observation of the final
    state. *)
Definition value {A} (o : outcome A) : option A := match o with Ok a _ => Some a | _ => None end.
Definition observe {A B} (f : A -> st -> B) (o : outcome A) : option B :=
  match o with Ok a s => Some (f a s) | _ => None end.
(** Compute both sides in the virtual machine (without reading the result back). *)
Ltac run := lazymatch goal with |- ?a = ?b => exact (@eq_refl _ b <: a = b) end.

(** A state without individuals whose entropy source yields well-mixed raw values. *)
Definition mixed (k i : nat) : Z :=
  let k := Z.of_nat k in let i := Z.of_nat i in (k * k * 31 + i * i * 7919 + k * i * 613 + 104729) / 3.
Definition fresh_world : st := mkSt (fun _ => blank_individ) 0 (fun _ => 0) mixed None (fun _ _ => 0) [].
