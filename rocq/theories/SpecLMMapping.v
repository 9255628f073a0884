(** Specifications for C83: maps of landmarks by Levenberg-Marquardt. *)
Require Import Reals List Arith.
From Verif Require Import Lin SpecGeom Nodes Robust Graph Sums Solve SpecSolve Session Factors SpecFactors SpecSolvable.
Import ListNotations.
Local Open Scope R_scope.

(** every estimated landmark is observed from a rigid pose with information of at
    least [mu] in every direction *)
Definition well_seen (mu : R) (cs : list pycall) (st : nat -> nval) : Prop :=
  forall j m v, nth_error (nodes_of cs) j = Some (m, v) -> m <> ANCHOR ->
  exists obs i W u T, In (CLandmark3d obs i j W u) cs /\ st i = P3 T /\ rigid T /\
    forall x, mu * (x 0%nat * x 0%nat + x 1%nat * x 1%nat + x 2%nat * x 2%nat) <= quad 3 W x x.
(** the square of the distance of two points *)
Definition sq_dist (v v' : nval) : R := match v, v' with L3 p, L3 q => v3sqn (v3sub p q) | _, _ => 0 end.
(** how much [m] steps shrink when the first shrinks by [c] and each next four times more *)
Fixpoint shrink (c : R) (m : nat) : R := match m with O => 1 | S m => shrink c m * (c / 4 ^ m) end.
