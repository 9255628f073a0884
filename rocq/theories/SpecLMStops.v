(** Specifications for C90: Levenberg-Marquardt comes to an end. *)
Require Import Reals List Arith.
From Verif Require Import Lin SpecGeom Nodes Robust Graph Sums Solve SpecSolve Session Factors SpecFactors SpecSolvable SpecRobustCost.
Import ListNotations.
Local Open Scope R_scope.

(** the nodes to estimate are planar poses and landmarks *)
Definition flat_nodes (cs : list pycall) : Prop :=
  forall i m v, nth_error (nodes_of cs) i = Some (m, v) -> m <> ANCHOR -> kind_of v = KP2 \/ kind_of v = KL2 \/ kind_of v = KL3.
(** states of the same kinds as [st], with the same anchors *)
Definition rearranged (cs : list pycall) (st st' : nat -> nval) : Prop :=
  forall i m v, nth_error (nodes_of cs) i = Some (m, v) -> kind_of (st' i) = kind_of (st i) /\ (m = ANCHOR -> st' i = st i).
(** the Jacobians are right wherever chi2 is not above its value at [st] *)
Definition jacobians_right_below (cs : list pycall) (st : nat -> nval) : Prop :=
  forall st', rearranged cs st st' -> lsum cs (call_chi2 st') <= lsum cs (call_chi2 st) -> jacobians_right cs st'.
(** how many of the passes improved chi2 by the tolerance or more *)
Definition improvements (es : list lm_exit) : nat := length (filter (fun e => match e with Accepted => true | _ => false end) es).
