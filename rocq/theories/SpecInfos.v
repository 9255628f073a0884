(** Specifications for C88: what informations mean. *)
Require Import Reals List Arith.
From Verif Require Import Lin Nodes Robust Graph Sums Solve SpecSolve Session Factors SpecFactors SpecSolvable SpecMapping SpecReorder.
Import ListNotations.
Local Open Scope R_scope.

(** a measurement without information *)
Definition uninformed (c : pycall) : Prop := forall i j, info_of c i j = 0.
(** the same call with [a] times the information *)
Definition rescale (a : R) (c : pycall) : pycall := with_info (fun i j => a * info_of c i j) c.
