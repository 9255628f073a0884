(** Models of the factor classes of /repo/src/FGraph/factors/ and of
    /repo/src/PCRegistration/factors/factor1PosePoint2Plane.cpp: what their
    constructors store, evaluate_residuals and evaluate_jacobians.
    Every evaluate_chi2 is 0.5 * r_.dot(W_ * r_) (see Solve.v).
    evaluate_jacobians of some classes reads members left by
    evaluate_residuals; the solver always calls the two in that order on the
    same node states (factor_graph_solve.cpp:221-225), so both are functions of
    the node states here.
    A node state of another kind than the class expects is a size mismatch in
    Eigen (undefined behaviour in release mode); the tables below give 0 there
    and [typed] in SpecFactors.v excludes it. *)
Require Import Reals List Arith Bool.
From Verif Require Import Lin SO3 SE3 Angle Nodes Robust Graph Sums Solve Session.
Import ListNotations.
Local Open Scope R_scope.

(** Eigen comma initialisers and entry access *)
Definition lvec (l : list R) (i : nat) : R := nth i l 0.
Definition lmat (rows : list (list R)) (i j : nat) : R := nth j (nth i rows []) 0.
Definition l3 (v : V3) : list R := [vx v; vy v; vz v].
Definition l4 (v : V4) : list R := l3 (v4h v) ++ [v4l v].
Definition l6 (v : V6) : list R := l3 (v6w v) ++ l3 (v6v v).
Definition rows3 (A : M3) : list (list R) :=
  [[a00 A; a01 A; a02 A]; [a10 A; a11 A; a12 A]; [a20 A; a21 A; a22 A]].
(** two matrices side by side (topLeftCorner, topRightCorner) *)
Fixpoint beside (A B : list (list R)) : list (list R) :=
  match A, B with a :: A, b :: B => (a ++ b) :: beside A B | _, _ => [] end.
Definition rows4 (A : M4) : list (list R) :=
  beside (rows3 (mR A)) [[vx (mt A)]; [vy (mt A)]; [vz (mt A)]] ++ [l3 (mb A) ++ [mc A]].
Definition rows6 (A : M6) : list (list R) :=
  beside (rows3 (mTL A)) (rows3 (mTR A)) ++ beside (rows3 (mBL A)) (rows3 (mBR A)).
(** matrix product, [n] columns in B *)
Fixpoint ldot (a b : list R) : R := match a, b with x :: a, y :: b => x * y + ldot a b | _, _ => 0 end.
Definition lmul (n : nat) (A B : list (list R)) : list (list R) :=
  map (fun r => map (fun j => ldot r (map (fun b => nth j b 0) B)) (seq 0 n)) A.

(** ** Factor1Pose2d *)
(** factor1Pose2d.cpp:43-47 *)
Definition res_pose2d (obs x : V3) : V3 := wrap3 (v3sub x obs).
(** factor1Pose2d.cpp:37-41 *)
Definition jac_pose2d : list (list R) := rows3 m3id.

(** ** Factor2Poses2d; the arguments are neighbours 0 and 1 *)
(** factor2Poses2d.cpp:58-73 *)
Definition res_2poses2d (obs origin target : V3) : V3 :=
  let h := v3sub target origin in
  let c1 := cos (vz origin) in
  let s1 := sin (vz origin) in
  wrap3 (v3sub (mkV3 (c1 * vx h + s1 * vy h) (- s1 * vx h + c1 * vy h) (vz h)) obs).
(** factor2Poses2d.cpp:75-90 *)
Definition jac_2poses2d (origin target : V3) : list (list R) :=
  let c1 := cos (vz origin) in
  let s1 := sin (vz origin) in
  let dx := vx target - vx origin in
  let dy := vy target - vy origin in
  [[- c1; - s1; - s1 * dx + c1 * dy;   c1; s1; 0];
   [s1; - c1; - c1 * dx - s1 * dy;   - s1; c1; 0];
   [0; 0; -1;   0; 0; 1]].
(** factor2Poses2d.cpp:49-53: the state given to the target node *)
Definition init_2poses2d (obs_ origin target : V3) : nval :=
  val_update (P2 target) (lvec (l3 (v3sub (v3add origin obs_) target))).

(** ** Factor2Poses2dOdom *)
(** factor2Poses2d.cpp:146-153 *)
Definition odom_prediction (state motion : V3) : V3 :=
  let a := vz state + vx motion in
  mkV3 (vx state + vy motion * cos a) (vy state + vy motion * sin a) (a + vz motion).
(** factor2Poses2d.cpp:121-131 *)
Definition res_odom (obs origin target : V3) : V3 := wrap3 (v3sub (odom_prediction origin obs) target).
(** factor2Poses2d.cpp:132-143 *)
Definition jac_odom (obs origin : V3) : list (list R) :=
  let s := - vy obs * sin (vz origin) in
  let c := vy obs * cos (vz origin) in
  [[1; 0; s;   -1; 0; 0];
   [0; 1; c;   0; -1; 0];
   [0; 0; 1;   0; 0; -1]].
(** factor2Poses2d.cpp:114-118 *)
Definition init_odom (obs_ origin target : V3) : nval :=
  val_update (P2 target) (lvec (l3 (v3sub (odom_prediction origin obs_) target))).

(** ** Factor1Pose3d *)
(** factor1Pose3d.cpp:48-56 *)
Definition res_pose3d (Tobs X : M4) : V6 := se3_ln_vee (se3_mul X (se3_inv Tobs)).
(** factor1Pose3d.cpp:58-64 *)
Definition jac_pose3d : list (list R) := rows6 m6id.

(** ** Factor2Poses3d *)
(** factor2Poses3d.cpp:87-99 *)
Definition tr_2poses3d (Tobs T0 T1 : M4) : M4 := se3_mul (se3_mul T0 Tobs) (se3_inv T1).
Definition res_2poses3d (Tobs T0 T1 : M4) : V6 := se3_ln_vee (tr_2poses3d Tobs T0 T1).
(** factor2Poses3d.cpp:100-105 *)
Definition jac_2poses3d (Tobs T0 T1 : M4) : list (list R) :=
  beside (rows6 m6id) (rows6 (m6scal (-1) (se3_adj (tr_2poses3d Tobs T0 T1)))).
(** factor2Poses3d.cpp:51-57, 78-84 *)
Definition init_2poses3d (Tobs origin : M4) : nval := P3 (m4mul origin Tobs).

(** ** Factor1Pose1Landmark2d *)
(** std::atan2 (external; C standard 7.12.4.4), signed zeros not distinguished:
    atan2(0, x) is pi for x < 0 and 0 at the origin *)
Definition atan2 (y x : R) : R :=
  if Rltb 0 x then atan (y / x)
  else if Rltb x 0 then (if Rleb 0 y then atan (y / x) + PI else atan (y / x) - PI)
  else if Rltb 0 y then PI / 2
  else if Rltb y 0 then - (PI / 2)
  else 0.
(** factor1Pose1Landmark2d.cpp:65-92 ([x] the pose, (lx, ly) the landmark; obs = (range, bearing)) *)
Definition res_landmark2d (range bearing : R) (x : V3) (lx ly : R) : list R :=
  let dx := lx - vx x in
  let dy := ly - vy x in
  let q := dx * dx + dy * dy in
  if Rltb q (1 / 1000000) then [0; 0]
  else [sqrt q - range; wrap_angle (atan2 dy dx - vz x - bearing)].
(** factor1Pose1Landmark2d.cpp:93-108, the blocks Jx and Jl *)
Definition jac_landmark2d (x : V3) (lx ly : R) : list (list R) * list (list R) :=
  let dx := lx - vx x in
  let dy := ly - vy x in
  let q := dx * dx + dy * dy in
  let sq := sqrt q in
  if Rltb q (1 / 1000000) then ([[1; 0; 0]; [0; 1; 0]], [[1; 0]; [0; 1]])
  else ([[- dx / sq; - dy / sq; 0]; [dy / q; - dx / q; -1]],
        [[dx / sq; dy / sq]; [- dy / q; dx / q]]).
(** factor1Pose1Landmark2d.cpp:54-61 *)
Definition init_landmark2d (range bearing : R) (x : V3) : nval :=
  L2 (vx x + range * cos (bearing + vz x)) (vy x + range * sin (bearing + vz x)).

(** ** Factor1Pose1Landmark3d *)
(** factor1Pose1Landmark3d.cpp:59-74 *)
Definition res_landmark3d (obs : V3) (T : M4) (l : V3) : V3 := v3sub (se3_transform (se3_inv T) l) obs.
(** factor1Pose1Landmark3d.cpp:75-92: (Tinv.T() * [l^ -I; 0 0]).topLeftCorner<3,6>() and Tinv.R() *)
Definition jac_landmark3d (T : M4) (l : V3) : list (list R) * list (list R) :=
  let Jr := beside (rows3 (hat3 l)) (rows3 (m3scal (-1) m3id)) ++ [[0; 0; 0; 0; 0; 0]] in
  (firstn 3 (lmul 6 (rows4 (se3_inv T)) Jr), rows3 (mR (se3_inv T))).

(** ** Factor1Pose1Plane4d *)
(** factor1Pose1Plane4d.cpp:53-85; [obs] is the stored, normalised observation *)
Definition res_plane4d (obs : V4) (T : M4) (pi : V4) : V4 :=
  let pi_local := m4app (m4tr T) pi in
  if Rltb (v4l pi_local) 0 then v4add pi_local obs else v4sub pi_local obs.
(** factor1Pose1Plane4d.cpp:86-102 *)
Definition jac_plane4d (T : M4) (pi : V4) : list (list R) * list (list R) :=
  let n := v4h pi in
  let Jx := beside (rows3 (hat3 n)) (rows3 m3zero) ++ [[0; 0; 0] ++ l3 n] in
  (lmul 6 (rows4 (m4tr T)) Jx, rows4 (m4tr T)).

(** ** Factor1PosePoint2Plane (src/PCRegistration/factors) *)
(** factor1PosePoint2Plane.cpp:43-50 *)
Definition res_point2plane (zx zy n : V3) (T : M4) : R := v3dot n (v3sub (se3_transform T zx) zy).
(** factor1PosePoint2Plane.cpp:52-58 *)
Definition jac_point2plane (zx n : V3) (T : M4) : list (list R) :=
  lmul 6 [l3 n] (beside (rows3 (m3scal (-1) (hat3 (se3_transform T zx)))) (rows3 m3id)).

(** ** The classes, with the neighbours in the order the constructor stores them *)
(** dimensions: factor1Pose2d.cpp:32 *)
Definition c_pose2d (obs : V3) : fclass :=
  mkFC 3 3 (fun vs => match vs with [P2 x] => lvec (l3 (res_pose2d obs x)) | _ => fun _ => 0 end)
           (fun vs => lmat jac_pose2d) None.
(** factor2Poses2d.cpp:31-55; [obs] is obs_ and [init] the position of the target node if it is to be updated *)
Definition c_2poses2d (obs : V3) (init : option nat) : fclass :=
  mkFC 3 6 (fun vs => match vs with [P2 o; P2 t] => lvec (l3 (res_2poses2d obs o t)) | _ => fun _ => 0 end)
           (fun vs => match vs with [P2 o; P2 t] => lmat (jac_2poses2d o t) | _ => fun _ _ => 0 end)
           (option_map (fun p => (p, fun vs => match vs with
              | [P2 a; P2 b] => if p =? 1 then init_2poses2d obs a b else init_2poses2d obs b a
              | _ => P2 v3zero end)) init)%nat.
(** factor2Poses2d.cpp:109-119 *)
Definition c_odom (obs : V3) (init : option nat) : fclass :=
  mkFC 3 6 (fun vs => match vs with [P2 o; P2 t] => lvec (l3 (res_odom obs o t)) | _ => fun _ => 0 end)
           (fun vs => match vs with [P2 o; P2 t] => lmat (jac_odom obs o) | _ => fun _ _ => 0 end)
           (option_map (fun p => (p, fun vs => match vs with
              | [P2 a; P2 b] => if p =? 1 then init_odom obs a b else init_odom obs b a
              | _ => P2 v3zero end)) init)%nat.
(** factor1Pose3d.cpp:32-46 *)
Definition c_pose3d (Tobs : M4) : fclass :=
  mkFC 6 6 (fun vs => match vs with [P3 X] => lvec (l6 (res_pose3d Tobs X)) | _ => fun _ => 0 end)
           (fun vs => lmat jac_pose3d) None.
(** factor2Poses3d.cpp:32-84 *)
Definition c_2poses3d (Tobs : M4) (init : option nat) : fclass :=
  mkFC 6 12 (fun vs => match vs with [P3 A; P3 B] => lvec (l6 (res_2poses3d Tobs A B)) | _ => fun _ => 0 end)
            (fun vs => match vs with [P3 A; P3 B] => lmat (jac_2poses3d Tobs A B) | _ => fun _ _ => 0 end)
            (option_map (fun p => (p, fun vs => match vs with
               | [P3 A; P3 B] => if p =? 1 then init_2poses3d Tobs A else init_2poses3d Tobs B
               | _ => P3 m4id end)) init)%nat.
(** factor1Pose1Landmark2d.cpp:33-62, 109-118; [rev] is reversedNodeOrder_ *)
Definition c_landmark2d (range bearing : R) (rev init : bool) : fclass :=
  mkFC 2 5 (fun vs => match rev, vs with
              | false, [P2 x; L2 a b] | true, [L2 a b; P2 x] => lvec (res_landmark2d range bearing x a b)
              | _, _ => fun _ => 0 end)
           (fun vs => match rev, vs with
              | false, [P2 x; L2 a b] => lmat (beside (fst (jac_landmark2d x a b)) (snd (jac_landmark2d x a b)))
              | true, [L2 a b; P2 x] => lmat (beside (snd (jac_landmark2d x a b)) (fst (jac_landmark2d x a b)))
              | _, _ => fun _ _ => 0 end)
           (if init then Some (if rev then 0%nat else 1%nat, fun vs => match rev, vs with
              | false, [P2 x; _] | true, [_; P2 x] => init_landmark2d range bearing x
              | _, _ => L2 0 0 end) else None).
(** factor1Pose1Landmark3d.cpp:32-55: initializeLandmark has no effect (lines 51-54) *)
Definition c_landmark3d (obs : V3) (rev : bool) : fclass :=
  mkFC 3 9 (fun vs => match rev, vs with
              | false, [P3 T; L3 l] | true, [L3 l; P3 T] => lvec (l3 (res_landmark3d obs T l))
              | _, _ => fun _ => 0 end)
           (fun vs => match rev, vs with
              | false, [P3 T; L3 l] => lmat (beside (fst (jac_landmark3d T l)) (snd (jac_landmark3d T l)))
              | true, [L3 l; P3 T] => lmat (beside (snd (jac_landmark3d T l)) (fst (jac_landmark3d T l)))
              | _, _ => fun _ _ => 0 end) None.
(** factor1Pose1Plane4d.cpp:31-51 *)
Definition c_plane4d (obs : V4) (rev : bool) : fclass :=
  let obs := plane_normalize obs in
  mkFC 4 10 (fun vs => match rev, vs with
              | false, [P3 T; PL p] | true, [PL p; P3 T] => lvec (l4 (res_plane4d obs T p))
              | _, _ => fun _ => 0 end)
            (fun vs => match rev, vs with
              | false, [P3 T; PL p] => lmat (beside (fst (jac_plane4d T p)) (snd (jac_plane4d T p)))
              | true, [PL p; P3 T] => lmat (beside (snd (jac_plane4d T p)) (fst (jac_plane4d T p)))
              | _, _ => fun _ _ => 0 end) None.
(** factor1PosePoint2Plane.cpp:30-35 *)
Definition c_point2plane (zx zy n : V3) : fclass :=
  mkFC 1 6 (fun vs => match vs with [P3 T] => lvec [res_point2plane zx zy n T] | _ => fun _ => 0 end)
           (fun vs => match vs with [P3 T] => lmat (jac_point2plane zx n T) | _ => fun _ _ => 0 end) None.

(** ** The Python methods (mrobpy/FGraphPy.cpp:74-203).  The constructors compare
    the ids of the two nodes; for nodes obtained with get_node(id) of a graph
    built through this interface that is the id passed in (C27).  Factors that
    only add information (noise model, prints) aside, each call is: *)
Inductive pycall : Type :=
| CNode (m : node_mode) (v : nval)
| CPose2d (obs : V3) (id : nat) (info : nat -> nat -> R)
| C2Poses2d (obs : V3) (idO idT : nat) (info : nat -> nat -> R) (updateNodeTarget : bool)
| COdom2d (obs : V3) (idO idT : nat) (info : nat -> nat -> R)
| CPose3d (obs : M4) (id : nat) (info : nat -> nat -> R)
| C2Poses3d (obs : M4) (idO idT : nat) (info : nat -> nat -> R) (updateNodeTarget : bool)
| CLandmark3d (obs : V3) (idP idL : nat) (info : nat -> nat -> R) (initializeLandmark : bool)
| CLandmark2d (range bearing : R) (idP idL : nat) (info : nat -> nat -> R) (initializeLandmark : bool)
| CPlane4d (obs : V4) (idP idL : nat) (info : nat -> nat -> R)
| CPoint2Plane (zx zy n : V3) (id : nat) (info : nat -> nat -> R)
| CSolve (m : optim_method) (maxIters : nat) (lambda tol : R)
| CChi2 (evaluate : bool).
Definition target_pos (rev upd : bool) : option nat := if upd then Some (if rev then 0%nat else 1%nat) else None.
Definition pycall_op (c : pycall) : pyop :=
  match c with
  | CNode m v => PyNode m v                                              (* 74-79, 110-115, 135-140, 154-159, 174-179 *)
  | CPose2d obs id W => PyFactor (c_pose2d obs) [id] W                   (* 80-85 *)
  | C2Poses2d obs o t W upd =>                                           (* 86-93; factor2Poses2d.cpp:36-48 *)
      if (o <? t)%nat then PyFactor (c_2poses2d obs (target_pos false upd)) [o; t] W
      else PyFactor (c_2poses2d (v3opp obs) (target_pos true upd)) [t; o] W
  | COdom2d obs o t W =>                                                 (* 94-100 *)
      if (o <? t)%nat then PyFactor (c_odom obs (target_pos false true)) [o; t] W
      else PyFactor (c_odom (v3opp obs) (target_pos true true)) [t; o] W
  | CPose3d obs id W => PyFactor (c_pose3d obs) [id] W                   (* 116-122 *)
  | C2Poses3d obs o t W upd =>                                           (* 123-131; factor2Poses3d.cpp:64-77: *)
      if (o <? t)%nat then PyFactor (c_2poses3d obs (target_pos false upd)) [o; t] W
      else PyFactor (c_2poses3d obs (target_pos true upd)) [t; o] W      (* Tobs_.inv() is discarded *)
  | CLandmark3d obs p l W _ =>                                           (* 141-149 *)
      if (p <? l)%nat then PyFactor (c_landmark3d obs false) [p; l] W
      else PyFactor (c_landmark3d obs true) [l; p] W
  | CLandmark2d range bearing p l W init =>                              (* 160-168 *)
      if (p <? l)%nat then PyFactor (c_landmark2d range bearing false init) [p; l] W
      else PyFactor (c_landmark2d range bearing true init) [l; p] W
  | CPlane4d obs p l W =>                                                (* 180-188 *)
      if (p <? l)%nat then PyFactor (c_plane4d obs false) [p; l] W
      else PyFactor (c_plane4d obs true) [l; p] W
  | CPoint2Plane zx zy n id W => PyFactor (c_point2plane zx zy n) [id] W (* 193-200 *)
  | CSolve m k lambda tol => PySolve m k lambda tol
  | CChi2 flag => PyChi2 flag
  end.
Definition pycalls (lin : linear_solver) (rob : robust_type) (s : solver) (cs : list pycall) : option solver :=
  pyrun lin rob s (map pycall_op cs).
