(** Specifications for C92: when a chi2 of zero means that the map is right. *)
Require Import Reals List Arith.
From Verif Require Import Lin SO3 SE3 SpecGeom Nodes Robust Graph Sums Solve SpecSolve Session Factors SpecFactors SpecSolvable SpecLocate.
Import ListNotations.
Local Open Scope R_scope.

(** the same place: headings up to turns, planes up to the sign of their equation *)
Definition alike (a b : nval) : Prop :=
  match a, b with
  | P2 p, P2 q => same_pose2 p q
  | P3 A, P3 B => A = B
  | L2 x y, L2 x' y' => x = x' /\ y = y'
  | L3 p, L3 q => p = q
  | PL p, PL q => p = q \/ p = v4scal (-1) q
  | _, _ => False
  end.
(** node [i] is pinned when the nodes have the states [st]: it is an anchor, has a
    prior, hangs on a pinned node, is a planar pose that sees two pinned landmarks at
    different places, or a pose that sees three pinned landmarks on no line *)
Inductive pinned (cs : list pycall) (st : nat -> nval) : nat -> Prop :=
| pinned_anchor i v : nth_error (nodes_of cs) i = Some (ANCHOR, v) -> pinned cs st i
| pinned_pose2d obs i W : In (CPose2d obs i W) cs -> positive 3 W -> pinned cs st i
| pinned_pose3d obs i W : In (CPose3d obs i W) cs -> positive 6 W -> pinned cs st i
| pinned_hangs i j : hangs cs i j -> pinned cs st i -> pinned cs st j
| pinned_2d r b r' b' i j k W W' u u' x y x' y' :
    In (CLandmark2d r b i j W u) cs -> positive 2 W -> pinned cs st j -> In (CLandmark2d r' b' i k W' u') cs -> positive 2 W' -> pinned cs st k ->
    st j = L2 x y -> st k = L2 x' y' -> (x, y) <> (x', y') -> pinned cs st i
| pinned_3d obs obs' obs'' i j k l W W' W'' u u' u'' a b c :
    In (CLandmark3d obs i j W u) cs -> positive 3 W -> pinned cs st j -> In (CLandmark3d obs' i k W' u') cs -> positive 3 W' -> pinned cs st k ->
    In (CLandmark3d obs'' i l W'' u'') cs -> positive 3 W'' -> pinned cs st l ->
    st j = L3 a -> st k = L3 b -> st l = L3 c -> ~ collinear a b c -> pinned cs st i.

(** a turn by less than a right angle, or not about (1,1,0) or (1,-1,0): the
    logarithm of other turns is not what it should be (C17) *)
Definition legible (A : M3) : Prop :=
  (forall theta, rotation_angle A theta -> theta < PI / 2) \/ (m3app A (mkV3 1 1 0) <> mkV3 1 1 0 /\ m3app A (mkV3 1 (-1) 0) <> mkV3 1 (-1) 0).
(** what the 3D pose factors turn into an error (C43: the observation is applied to
    the pose with the smaller id) *)
Definition relative_error (obs : M4) (i j : nat) (st : nat -> nval) : M4 :=
  if (i <? j)%nat then m4mul (m4mul (pose_of (st i)) obs) (se3_inv (pose_of (st j)))
  else m4mul (m4mul (pose_of (st j)) obs) (se3_inv (pose_of (st i))).
(** measured motions are rigid, measured ranges not negative *)
Definition sound (c : pycall) : Prop :=
  match c with
  | CPose3d obs _ _ | C2Poses3d obs _ _ _ _ => rigid obs
  | CLandmark2d r _ _ _ _ _ => 0 <= r
  | _ => True end.
(** no planar landmark is within 1e-3 of the pose that sees it, and the errors of 3D
    poses are legible *)
Definition clear_view (st : nat -> nval) (c : pycall) : Prop :=
  match c with
  | CPose3d obs i _ => legible (m3mul (mR (pose_of (st i))) (m3tr (mR obs)))
  | C2Poses3d obs i j _ _ => legible (mR (relative_error obs i j st))
  | CLandmark2d _ _ i j _ _ => forall p x y, st i = P2 p -> st j = L2 x y -> ~ nearby p x y
  | _ => True end.
