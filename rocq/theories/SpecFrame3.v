(** Specifications for C82: one 3D session written down in two coordinate frames. *)
Require Import Reals List Arith.
From Verif Require Import Lin SpecGeom SE3 Nodes Robust Graph Sums Solve SpecSolve Session Factors SpecFactors.
Import ListNotations.
Local Open Scope R_scope.

(** the second frame sees a point p of the first at [placed g p] *)
Definition placed (g : M4) (p : V3) : V3 := v3add (m3app (mR g) p) (mt g).
(** the same 3D pose (rigid), landmark or plane (with unit normal), in the first and
    in the second frame; a plane (n, d) is the set of the p with n . p + d = 0 *)
Definition moved3 (g : M4) (v v' : nval) : Prop :=
  match v, v' with
  | P3 T, P3 T' => rigid T /\ T' = m4mul g T
  | L3 p, L3 p' => p' = placed g p
  | PL n, PL n' => v3sqn (v4h n) = 1 /\ v4h n' = m3app (mR g) (v4h n) /\ v4l n' = v4l n - v3dot (v4h n') (mt g)
  | _, _ => False
  end.
(** the same information about the error (rotation, translation) of a pose: the
    twist (w, v) of the first frame is (R w, R v + t x R w) in the second *)
Definition turned6 (g : M4) (W W' : nat -> nat -> R) : Prop :=
  forall w v : V3, let w' := m3app (mR g) w in let v' := v3add (m3app (mR g) v) (v3cross (mt g) w') in
  quad 6 W' (lvec (l3 w' ++ l3 v')) (lvec (l3 w' ++ l3 v')) = quad 6 W (lvec (l3 w ++ l3 v)) (lvec (l3 w ++ l3 v)).
(** the same call in both frames. Relative poses, landmarks and planes are entered
    as observed; the observation of a prior and the point and normal of a plane in
    the map are moved. Priors and relative poses get turned information, even though
    the observed relative pose is the same (C82_origin_refuted). *)
Definition framed3 (g : M4) (c c' : pycall) : Prop :=
  match c, c' with
  | CNode m v, CNode m' v' => m' = m /\ moved3 g v v'
  | CPose3d obs i W, CPose3d obs' i' W' => rigid obs /\ obs' = m4mul g obs /\ i' = i /\ turned6 g W W'
  | C2Poses3d obs i j W upd, C2Poses3d obs' i' j' W' upd' => rigid obs /\ obs' = obs /\ i' = i /\ j' = j /\ turned6 g W W' /\ upd' = upd
  | CLandmark3d obs i j W init, CLandmark3d obs' i' j' W' init' => obs' = obs /\ i' = i /\ j' = j /\ W' = W /\ init' = init
  | CPlane4d obs i j W, CPlane4d obs' i' j' W' => obs' = obs /\ i' = i /\ j' = j /\ W' = W
  | CPoint2Plane zx zy n i W, CPoint2Plane zx' zy' n' i' W' => zx' = zx /\ zy' = placed g zy /\ n' = m3app (mR g) n /\ i' = i /\ W' = W
  | CChi2 e, CChi2 e' => e' = e
  | _, _ => False
  end.
(** the rotation part of the error of a prior or relative pose is below a quarter turn
    (trace 1 + 2 cos theta); if the origins differ, above 0.005 or zero (the
    exponential series of the code are cut off) *)
Definition small_turn (g : M4) (A : M3) : Prop := 1 < m3trace A /\ (mt g = v3zero \/ m3trace A = 3 \/ m3trace A < 1 + 2 * cos (5 / 1000)).
Definition small_error (g : M4) (st : nat -> nval) (c : pycall) : Prop :=
  match c with
  | CPose3d obs i _ => match st i with P3 X => small_turn g (m3mul (mR X) (m3tr (mR obs))) | _ => True end
  | C2Poses3d obs i j _ _ => match st (Nat.min i j), st (Nat.max i j) with P3 A, P3 B => small_turn g (m3mul (m3mul (mR A) (mR obs)) (m3tr (mR B))) | _, _ => True end
  | _ => True
  end.
