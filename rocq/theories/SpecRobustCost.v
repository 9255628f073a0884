(** Specifications for C89: what solving with a robust function minimises. *)
Require Import Reals List Arith.
From Verif Require Import Lin SO3 SpecGeom Nodes Robust Graph Sums Solve SpecSolve Session Factors SpecFactors SpecSolvable.
Import ListNotations.
Local Open Scope R_scope.

(** what a measurement with half squared Mahalanobis residual [c] costs: the textbook
    losses whose derivatives are the weights of the robust functions *)
Definition loss (rob : robust_type) (c : R) : R :=
  match rob with
  | HUBER => if Rltb (sqrt c) 1 then c else 2 * sqrt c - 1
  | CAUCHY => ln (1 + c)
  | MCCLURE => c / (1 + c)
  | QUADRATIC | RANSAC => c
  end.
(** the cost of a graph at the states [st] of its nodes *)
Definition robust_cost (rob : robust_type) (cs : list pycall) (st : nat -> nval) : R := lsum cs (fun c => loss rob (call_chi2 st c)).
(** all nodes move along curves, node [i] with velocity [d i]; anchors rest *)
Definition motion (cs : list pycall) (st : nat -> nval) (d : nat -> nat -> R) (g : nat -> R -> nval) : Prop :=
  (forall i, tangent (g i) (st i) (d i)) /\ forall i v k, nth_error (nodes_of cs) i = Some (ANCHOR, v) -> d i k = 0.
(** to first order, no motion changes the cost *)
Definition stationary (rob : robust_type) (cs : list pycall) (st : nat -> nval) : Prop :=
  forall d g, motion cs st d g -> derivable_pt_lim (fun s => robust_cost rob cs (fun i => g i s)) 0 0.
(** the Jacobian of every measurement is the derivative of its residual *)
Definition jacobians_right (cs : list pycall) (st : nat -> nval) : Prop :=
  forall c, In c cs -> call_factor c <> None -> jacobian_right c st.
(** 3D poses are rigid motions *)
Definition rigid_states (st : nat -> nval) : Prop := forall i T, st i = P3 T -> rigid T.
(** no states of the same kinds, with the same anchors, have a lower plain chi2 *)
Definition least_squares (cs : list pycall) (st : nat -> nval) : Prop :=
  forall st', (forall i m v, nth_error (nodes_of cs) i = Some (m, v) -> kind_of (st' i) = kind_of (st i) /\ (m = ANCHOR -> st' i = st i)) -> lsum cs (call_chi2 st) <= lsum cs (call_chi2 st').
