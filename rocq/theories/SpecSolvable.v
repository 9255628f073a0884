(** Specifications for C80: graphs whose normal equations have one solution, and
    graphs that float. *)
Require Import Reals List Arith.
From Verif Require Import Lin Nodes Robust Graph Sums Solve SpecSolve Session Factors SpecFactors SpecFrame.
Import ListNotations.
Local Open Scope R_scope.

(** information about all [n] coordinates *)
Definition positive (n : nat) (W : nat -> nat -> R) : Prop := forall x, quad n W x x = 0 -> forall i, (i < n)%nat -> x i = 0.
(** affine maps with an invertible linear part: all rigid motions *)
Definition solid (T : M4) : Prop := m3det (mR T) <> 0 /\ mb T = v3zero /\ mc T = 1.
Definition solid_call (c : pycall) : Prop :=
  match c with CNode _ (P3 T) => solid T | C2Poses3d T _ _ _ _ => solid T | _ => True end.
(** the information matrices of a session *)
Definition call_info (c : pycall) : Prop :=
  match call_factor c with Some (cl, _, W) => proper (fc_dim cl) W | None => True end.
(** the nodes of a session, by id *)
Definition nodes_of (cs : list pycall) : list (node_mode * nval) :=
  flat_map (fun c => match c with CNode m v => [(m, v)] | _ => [] end) cs.

(** node [i] is held: it is an anchor, has a prior, or hangs on a held node by a
    relative pose (either way), odometry (either way) or as an observed landmark
    or plane; with information about all coordinates *)
Inductive held (cs : list pycall) : nat -> Prop :=
| held_anchor i v : nth_error (nodes_of cs) i = Some (ANCHOR, v) -> held cs i
| held_pose2d obs i W : In (CPose2d obs i W) cs -> positive 3 W -> held cs i
| held_pose3d obs i W : In (CPose3d obs i W) cs -> positive 6 W -> held cs i
| held_2poses2d obs i j W u : In (C2Poses2d obs i j W u) cs -> positive 3 W -> held cs i -> held cs j
| held_2poses2d' obs i j W u : In (C2Poses2d obs i j W u) cs -> positive 3 W -> held cs j -> held cs i
| held_odom obs i j W : In (COdom2d obs i j W) cs -> positive 3 W -> held cs i -> held cs j
| held_odom' obs i j W : In (COdom2d obs i j W) cs -> positive 3 W -> held cs j -> held cs i
| held_2poses3d obs i j W u : In (C2Poses3d obs i j W u) cs -> positive 6 W -> held cs i -> held cs j
| held_2poses3d' obs i j W u : In (C2Poses3d obs i j W u) cs -> positive 6 W -> held cs j -> held cs i
| held_landmark2d r b i j W u : In (CLandmark2d r b i j W u) cs -> positive 2 W -> held cs i -> held cs j
| held_landmark3d obs i j W u : In (CLandmark3d obs i j W u) cs -> positive 3 W -> held cs i -> held cs j
| held_plane obs i j W : In (CPlane4d obs i j W) cs -> positive 4 W -> held cs i -> held cs j.

(** a set of planar nodes floats: no anchors, no priors, and no factor joins it to
    the rest *)
Definition floating (S : nat -> bool) (cs : list pycall) : Prop :=
  (forall i, S i = true -> exists v, nth_error (nodes_of cs) i = Some (STANDARD, v) /\ (kind_of v = KP2 \/ kind_of v = KL2)) /\
  forall c, In c cs -> match c with
    | CPose2d _ i _ => S i = false
    | C2Poses2d _ i j _ _ | COdom2d _ i j _ | CLandmark2d _ _ i j _ _ => S i = S j
    | _ => True end.
(** no landmark observed within S is closer than 1e-3 to its pose *)
Definition apart (S : nat -> bool) (cs : list pycall) (st : nat -> nval) : Prop :=
  forall r b i j W u p x y, In (CLandmark2d r b i j W u) cs -> S i = true -> st i = P2 p -> st j = L2 x y ->
    1 / 1000000 <= (x - vx p) * (x - vx p) + (y - vy p) * (y - vy p).
(** the velocity of a node when the plane moves by (a, b) and turns by om about the origin *)
Definition swing (a b om : R) (v : nval) (k : nat) : R :=
  match v with
  | P2 p => nth k [a - om * vy p; b + om * vx p; om] 0
  | L2 x y => nth k [a - om * y; b + om * x] 0
  | _ => 0
  end.
Definition pos_x (v : nval) : R := match v with P2 p => vx p | L2 x _ => x | _ => 0 end.
Definition pos_y (v : nval) : R := match v with P2 p => vy p | L2 _ y => y | _ => 0 end.
(** the sum over the nodes of S with ids below n *)
Definition total (S : nat -> bool) (n : nat) (f : nval -> R) (st : nat -> nval) : R := lsum (filter S (seq 0 n)) (fun i => f (st i)).
(** the motion (a, b, om) turns nothing that odometry was read from *)
Definition turns_no_odom (S : nat -> bool) (cs : list pycall) (om : R) : Prop :=
  om = 0 \/ forall obs i j W, In (COdom2d obs i j W) cs -> S i = false.
