(** Specifications for C84: the same graph, built in another order. *)
Require Import Reals List Arith Permutation.
From Verif Require Import Lin Nodes Robust Graph Sums Solve SpecSolve Session Factors SpecFactors SpecSolvable SpecMapping.
Import ListNotations.
Local Open Scope R_scope.

(** the same call, with node [i] now called [p i] *)
Definition rename (p : nat -> nat) (c : pycall) : pycall :=
  match c with
  | CNode m v => CNode m v
  | CPose2d obs i W => CPose2d obs (p i) W
  | C2Poses2d obs i j W u => C2Poses2d obs (p i) (p j) W u
  | COdom2d obs i j W => COdom2d obs (p i) (p j) W
  | CPose3d obs i W => CPose3d obs (p i) W
  | C2Poses3d obs i j W u => C2Poses3d obs (p i) (p j) W u
  | CLandmark3d obs i j W u => CLandmark3d obs (p i) (p j) W u
  | CLandmark2d r b i j W u => CLandmark2d r b (p i) (p j) W u
  | CPlane4d obs i j W => CPlane4d obs (p i) (p j) W
  | CPoint2Plane zx zy n i W => CPoint2Plane zx zy n (p i) W
  | CSolve m k la tol => CSolve m k la tol
  | CChi2 e => CChi2 e
  end.
(** two poses joined by a measurement keep the order of their ids (C42 and C43:
    the other order is another measurement) *)
Definition order_kept (p : nat -> nat) (c : pycall) : Prop :=
  match c with
  | C2Poses2d _ i j _ _ | COdom2d _ i j _ | C2Poses3d _ i j _ _ => (i < j <-> p i < p j)%nat
  | _ => True
  end.
(** session [cs'] makes the nodes of [cs], node [i] as node [p i]: any initial
    values, but the same anchors *)
Record renumbered (p : nat -> nat) (cs cs' : list pycall) : Prop := {
  rn_count : length (nodes_of cs') = length (nodes_of cs);
  rn_node : forall i m v, nth_error (nodes_of cs) i = Some (m, v) -> exists v', nth_error (nodes_of cs') (p i) = Some (m, v');
  rn_apart : forall i j, (i < length (nodes_of cs))%nat -> (j < length (nodes_of cs))%nat -> p i = p j -> i = j }.
(** the information of a measurement *)
Definition info_of (c : pycall) : nat -> nat -> R :=
  match c with
  | CPose2d _ _ W | C2Poses2d _ _ _ W _ | COdom2d _ _ _ W | CPose3d _ _ W | C2Poses3d _ _ _ W _ | CLandmark3d _ _ _ W _ | CLandmark2d _ _ _ _ W _
  | CPlane4d _ _ _ W | CPoint2Plane _ _ _ _ W => W
  | _ => fun _ _ => 0
  end.
Definition with_info (W : nat -> nat -> R) (c : pycall) : pycall :=
  match c with
  | CPose2d obs i _ => CPose2d obs i W
  | C2Poses2d obs i j _ u => C2Poses2d obs i j W u
  | COdom2d obs i j _ => COdom2d obs i j W
  | CPose3d obs i _ => CPose3d obs i W
  | C2Poses3d obs i j _ u => C2Poses3d obs i j W u
  | CLandmark3d obs i j _ u => CLandmark3d obs i j W u
  | CLandmark2d r b i j _ u => CLandmark2d r b i j W u
  | CPlane4d obs i j _ => CPlane4d obs i j W
  | CPoint2Plane zx zy n i _ => CPoint2Plane zx zy n i W
  | _ => c
  end.
(** the same measurements, in another order or in several shares *)
Inductive regrouped : list pycall -> list pycall -> Prop :=
| rg_order a b : Permutation a b -> regrouped a b
| rg_shares c W1 W2 r : (forall i j, info_of c i j = W1 i j + W2 i j) -> regrouped (c :: r) (with_info W1 c :: with_info W2 c :: r)
| rg_sym a b : regrouped a b -> regrouped b a
| rg_trans a b c : regrouped a b -> regrouped b c -> regrouped a c.
