(** Specifications for C97: a branch of new nodes. *)
Require Import Reals List Arith.
From Verif Require Import Lin Nodes Robust Graph Sums Solve SpecSolve Session Factors SpecFactors SpecSolvable SpecLocate.
Import ListNotations.
Local Open Scope R_scope.

(** the [j]th of the measurements ties the new node [N + j] to an earlier node, old or new *)
Definition branch (N : nat) (more : list pycall) : Prop :=
  forall j c, nth_error more j = Some c -> exists i, (i < N + j)%nat /\ hangs [c] i (N + j).
