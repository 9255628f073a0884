(** Specifications for C85: states that solving leaves alone. *)
Require Import Reals List Arith.
From Verif Require Import Lin SpecGeom Nodes Robust Graph Sums Solve SpecSolve Session Factors SpecFactors SpecSolvable.
Import ListNotations.
Local Open Scope R_scope.

(** every measurement is met exactly *)
Definition consistent (cs : list pycall) (st : nat -> nval) : Prop :=
  forall c, In c cs -> call_factor c <> None -> residual_zero c st.
(** how much the measurement of a call resists the velocities [d] of the nodes:
    weight times r^T W J d, with the weight of its robust function *)
Definition pull (rob : robust_type) (st : nat -> nval) (d : nat -> nat -> R) (c : pycall) : R :=
  match call_factor c with
  | Some (cl, ids, W) => robust_eval rob 0 (sqrt (call_chi2 st c)) *
      quad (fc_dim cl) W (fun i => row_dir (fc_jac cl (map st ids) i) 0 (map st ids) (map d ids)) (fc_res cl (map st ids))
  | None => 0
  end.
(** the measurements hold each other in balance: no velocities of the nodes (with
    the anchors at rest) change the weighted cost to first order *)
Definition balanced (rob : robust_type) (cs : list pycall) (st : nat -> nval) : Prop :=
  forall d, (forall i v k, nth_error (nodes_of cs) i = Some (ANCHOR, v) -> d i k = 0) -> lsum cs (pull rob st d) = 0.
(** states that are written as the updates of nodes write them: wrapped headings,
    unit normals, rotations that SO3::ln and SO3::exp reproduce exactly (C17) *)
Definition settled (v : nval) : Prop :=
  match v with
  | P2 x => - PI <= vz x < PI
  | P3 T => rigid T /\ exists theta, rotation_angle (mR T) theta /\ (theta = 0 \/ 5 / 1000 < theta <= PI - 6 / 100000000 \/ theta = PI) /\
      (theta < PI / 2 \/ (m3app (mR T) (mkV3 1 1 0) <> mkV3 1 1 0 /\ m3app (mR T) (mkV3 1 (-1) 0) <> mkV3 1 (-1) 0))
  | L2 _ _ | L3 _ => True
  | PL p => v3norm (v4h p) = 1
  end.
