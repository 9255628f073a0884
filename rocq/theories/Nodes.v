(** Model of the node classes in /repo/src/FGraph/factors/node*.cpp.
    A node value is what state_ / auxiliaryState_ hold; an increment dx is the
    Eigen vector handed to update, of the node's dimension, read as a function
    of its index (its length is the node's dimension in every call made by the
    solvers; Eigen asserts it). *)
Require Import Reals List.
From Verif Require Import Lin SO3 SE3 Angle.
Local Open Scope R_scope.

Inductive nval : Type :=
| P2 (x : V3)          (* NodePose2d: Mat31 (x, y, theta) *)
| P3 (T : M4)          (* NodePose3d: SE3 *)
| L2 (x y : R)         (* NodeLandmark2d: Mat21 *)
| L3 (p : V3)          (* NodeLandmark3d: Mat31 *)
| PL (p : V4).         (* NodePlane4d: Mat41 *)

(** Node(dim, mode) as called by the constructors: nodePose2d.cpp:29,
    nodePose3d.cpp:32, nodeLandmark2d.cpp:33, nodeLandmark3d.cpp:32,
    nodePlane4d.cpp:32 *)
Definition nval_dim (v : nval) : nat :=
  match v with P2 _ => 3 | P3 _ => 6 | L2 _ _ => 2 | L3 _ => 3 | PL _ => 4 end.

(** the vector dx as fixed-size Eigen vector *)
Definition dx3 (dx : nat -> R) : V3 := mkV3 (dx 0%nat) (dx 1%nat) (dx 2%nat).
Definition dx4 (dx : nat -> R) : V4 := mkV4 (dx3 dx) (dx 3%nat).
Definition dx6 (dx : nat -> R) : V6 := mkV6 (dx3 dx) (mkV3 (dx 3%nat) (dx 4%nat) (dx 5%nat)).

(** state_(2) = wrap_angle(state_(2)) *)
Definition wrap3 (x : V3) : V3 := mkV3 (vx x) (vy x) (wrap_angle (vz x)).
(** Eigen normalize() (external): divides by the norm if the squared norm is positive *)
Definition v3normalize (n : V3) : V3 :=
  if Rltb 0 (v3sqn n) then v3scal (/ v3norm n) n else n.
Definition plane_normalize (p : V4) : V4 := mkV4 (v3normalize (v4h p)) (v4l p).

(** Constructors: nodePose2d.cpp:29-33 (no wrapping), nodePose3d.cpp:31-44,
    nodeLandmark2d.cpp:32-37, nodeLandmark3d.cpp:31-36, nodePlane4d.cpp:31-39
    (normalises both copies) *)
Definition node_init (v : nval) : nval := match v with PL p => PL (plane_normalize p) | _ => v end.

(** update: nodePose2d.cpp:35-40, nodePose3d.cpp:47-56, nodeLandmark2d.cpp:40-43,
    nodeLandmark3d.cpp:39-43, nodePlane4d.cpp:43-47 *)
Definition val_update (v : nval) (dx : nat -> R) : nval :=
  match v with
  | P2 x => P2 (wrap3 (v3add x (dx3 dx)))
  | P3 T => P3 (se3_regenerate (se3_update_lhs T (dx6 dx)))
  | L2 x y => L2 (x + dx 0%nat) (y + dx 1%nat)
  | L3 p => L3 (v3add p (dx3 dx))
  | PL p => PL (plane_normalize (v4add p (dx4 dx)))
  end.
(** update_from_auxiliary, applied to the auxiliary value: nodePose2d.cpp:42-47,
    nodePose3d.cpp:58-63 (no regenerate here), nodeLandmark2d.cpp:45-48,
    nodeLandmark3d.cpp:45-49, nodePlane4d.cpp:49-53 *)
Definition val_update_aux (v : nval) (dx : nat -> R) : nval :=
  match v with
  | P2 x => P2 (wrap3 (v3add x (dx3 dx)))
  | P3 T => P3 (se3_update_lhs T (dx6 dx))
  | L2 x y => L2 (x + dx 0%nat) (y + dx 1%nat)
  | L3 p => L3 (v3add p (dx3 dx))
  | PL p => PL (plane_normalize (v4add p (dx4 dx)))
  end.
(** set_state / set_auxiliary_state: nodePose2d.cpp:50-60 (wraps),
    nodePose3d.cpp:65-76, nodeLandmark2d.cpp:50-58, nodeLandmark3d.cpp:51-60,
    nodePlane4d.hpp:55-56 (no normalisation) *)
Definition val_set (v : nval) : nval := match v with P2 x => P2 (wrap3 x) | _ => v end.

(** the two copies kept by every node (node.hpp:51-53) *)
Record ndata : Type := mkN { nst : nval; nax : nval }.
Definition node_new (v : nval) : ndata := mkN (node_init v) (node_init v).
Definition node_update (d : ndata) (dx : nat -> R) : ndata := mkN (val_update (nst d) dx) (nax d).
Definition node_update_from_auxiliary (d : ndata) (dx : nat -> R) : ndata :=
  mkN (val_update_aux (nax d) dx) (nax d).
(** assigning a value of another kind is a size mismatch (Eigen assert, UB in
    release): [None] *)
Definition same_kind (a b : nval) : bool :=
  match a, b with
  | P2 _, P2 _ | P3 _, P3 _ | L2 _ _, L2 _ _ | L3 _, L3 _ | PL _, PL _ => true
  | _, _ => false
  end.
Definition node_set_state (d : ndata) (v : nval) : option ndata :=
  if same_kind (nst d) v then Some (mkN (val_set v) (nax d)) else None.
Definition node_set_auxiliary_state (d : ndata) (v : nval) : option ndata :=
  if same_kind (nax d) v then Some (mkN (nst d) (val_set v)) else None.
(** synchronize_nodes_auxiliary_state / synchronize_nodes_state on one node,
    factor_graph_solve.cpp:376-387 *)
Definition node_bookkeep (d : ndata) : ndata := mkN (nst d) (val_set (nst d)).
Definition node_restore (d : ndata) : ndata := mkN (val_set (nax d)) (nax d).

(** ** sequences of calls on one node *)
Inductive node_op : Type :=
| NUpdate (dx : nat -> R)
| NUpdateAux (dx : nat -> R)
| NSetState (v : nval)
| NSetAux (v : nval)
| NBookkeep
| NRestore.
Definition node_step (d : ndata) (o : node_op) : option ndata :=
  match o with
  | NUpdate dx => Some (node_update d dx)
  | NUpdateAux dx => Some (node_update_from_auxiliary d dx)
  | NSetState v => node_set_state d v
  | NSetAux v => node_set_auxiliary_state d v
  | NBookkeep => Some (node_bookkeep d)
  | NRestore => Some (node_restore d)
  end.
Fixpoint node_run (d : ndata) (ops : list node_op) : option ndata :=
  match ops with
  | nil => Some d
  | o :: r => match node_step d o with Some d' => node_run d' r | None => None end
  end.
