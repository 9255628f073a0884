(** Specifications for C91: which observations of known nodes locate a pose. *)
Require Import Reals List Arith.
From Verif Require Import Lin SE3 Nodes Robust Graph Sums Solve SpecSolve Session Factors SpecFactors SpecFrame SpecSolvable.
Import ListNotations.
Local Open Scope R_scope.

(** information about all coordinates of the residual *)
Definition certain (c : pycall) : Prop := match call_factor c with Some (cl, _, W) => positive (fc_dim cl) W | None => True end.
(** a factor of the session fixes node [j] to node [i] *)
Inductive hangs (cs : list pycall) : nat -> nat -> Prop :=
| hangs_2poses2d obs i j W u : In (C2Poses2d obs i j W u) cs -> positive 3 W -> hangs cs i j
| hangs_2poses2d' obs i j W u : In (C2Poses2d obs i j W u) cs -> positive 3 W -> hangs cs j i
| hangs_odom obs i j W : In (COdom2d obs i j W) cs -> positive 3 W -> hangs cs i j
| hangs_odom' obs i j W : In (COdom2d obs i j W) cs -> positive 3 W -> hangs cs j i
| hangs_2poses3d obs i j W u : In (C2Poses3d obs i j W u) cs -> positive 6 W -> hangs cs i j
| hangs_2poses3d' obs i j W u : In (C2Poses3d obs i j W u) cs -> positive 6 W -> hangs cs j i
| hangs_landmark2d r b i j W u : In (CLandmark2d r b i j W u) cs -> positive 2 W -> hangs cs i j
| hangs_landmark3d obs i j W u : In (CLandmark3d obs i j W u) cs -> positive 3 W -> hangs cs i j
| hangs_plane obs i j W : In (CPlane4d obs i j W) cs -> positive 4 W -> hangs cs i j.

(** space turning with angular velocity [om] about the origin and moving with velocity [v]:
    a point stays where it is; a plane with normal [n] stays as it is; a point [q]
    moves along the plane with normal [n] through it *)
Definition keeps_point (om v q : V3) : Prop := v3add (v3cross om q) v = v3zero.
Definition keeps_plane (om v n : V3) : Prop := v3cross om n = v3zero /\ v3dot n v = 0.
Definition slides (om v n q : V3) : Prop := v3dot n (v3add (v3cross om q) v) = 0.
Definition point_of (x : nval) : V3 := match x with L3 l => l | _ => v3zero end.
Definition normal_of (x : nval) : V3 := match x with PL p => v4h p | _ => v3zero end.
Definition pose_of (x : nval) : M4 := match x with P3 T => T | _ => m4id end.
(** the observations [fs] made from pose [i] do not notice that motion *)
Definition unnoticed (fs : list pycall) (st : nat -> nval) (i : nat) (om v : V3) : Prop :=
  forall c, In c fs -> match c with
    | CLandmark3d _ p j _ _ => p = i -> keeps_point om v (point_of (st j))
    | CPlane4d _ p j _ => p = i -> keeps_plane om v (normal_of (st j))
    | CPoint2Plane zx _ n p _ => p = i -> slides om v n (se3_transform (pose_of (st i)) zx)
    | _ => True end.
(** the node that is observed *)
Definition observed (c : pycall) : option nat :=
  match c with CLandmark3d _ _ j _ _ | CPlane4d _ _ j _ => Some j | _ => None end.
(** the Jacobian of a planar landmark ignores the pose's angle when closer than 1e-3 *)
Definition nearby (p : V3) (x y : R) : Prop := (x - vx p) * (x - vx p) + (y - vy p) * (y - vy p) < 1 / 1000000.

(** node [i] is located when the nodes have the states [st]: it is held (C80), hangs on
    a located node, is a planar pose that sees two located landmarks at different
    places, not both nearby, or is a pose whose observations of located nodes notice
    every motion *)
Inductive located (cs : list pycall) (st : nat -> nval) : nat -> Prop :=
| located_held i : held cs i -> located cs st i
| located_hangs i j : hangs cs i j -> located cs st i -> located cs st j
| located_2d r b r' b' i j k W W' u u' p x y x' y' :
    In (CLandmark2d r b i j W u) cs -> positive 2 W -> located cs st j -> In (CLandmark2d r' b' i k W' u') cs -> positive 2 W' -> located cs st k ->
    st i = P2 p -> st j = L2 x y -> st k = L2 x' y' -> (x, y) <> (x', y') -> ~ (nearby p x y /\ nearby p x' y') -> located cs st i
| located_3d fs i T : st i = P3 T -> (forall c, In c fs -> In c cs /\ certain c) -> (forall c j, In c fs -> observed c = Some j -> located cs st j) ->
    (forall om v, unnoticed fs st i om v -> om = v3zero /\ v = v3zero) -> located cs st i.

(** three points on no line; three normals on no plane through the origin *)
Definition collinear (a b c : V3) : Prop := v3cross (v3sub b a) (v3sub c a) = v3zero.
Definition independent (a b c : V3) : Prop := v3dot (v3cross a b) c <> 0.
(** all factors of node [i] are observations made from it *)
Definition only_observes (cs : list pycall) (i : nat) : Prop :=
  forall c cl ids W, In c cs -> call_factor c = Some (cl, ids, W) -> In i ids ->
  match c with CLandmark3d _ p _ _ _ | CPlane4d _ p _ _ | CPoint2Plane _ _ _ p _ => p = i | _ => False end.
