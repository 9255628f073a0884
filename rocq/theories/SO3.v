(** Model of /repo/src/geometry/SO3.cpp (SO3 = its 3x3 matrix R_).
    [double] is modelled by R, M_PI by PI. *)
Require Import Reals Bool.
From Verif Require Import Lin.
Local Open Scope R_scope.

(** Boolean tests standing for the C++ comparisons on doubles (no NaN). *)
Definition Rltb (x y : R) : bool := if Rlt_dec x y then true else false.
Definition Rleb (x y : R) : bool := if Rle_dec x y then true else false.

(** std::acos: [None] is NaN (argument outside [-1,1]). *)
Definition acos_d (x : R) : option R :=
  if Rle_dec (-1) x then if Rle_dec x 1 then Some (acos x) else None else None.

(** SO3.cpp:90-95 vee3: reads only the three upper entries. *)
Definition vee3 (W : M3) : V3 := mkV3 (- a12 W) (a02 W) (- a01 W).

(** SO3.cpp:97-104 hat3 *)
Definition hat3 (w : V3) : M3 :=
  mkM3      0     (- vz w)   (vy w)
        (vz w)       0     (- vx w)
      (- vy w)    (vx w)       0.

(** SO3.cpp:107-127 SO3::exp (returns the new R_).
    First the two coefficients, then the sum of line 126. *)
Definition so3_exp_c1 (o o2 : R) : R :=
  if Rltb o (1 / 100000) then 1 - o2 / 6 else sin o / o.
Definition so3_exp_c2 (o o2 : R) : R :=
  if Rltb o (1 / 100000) then 1 / 2 - o2 / 24 else (1 - cos o) / o2.
Definition so3_exp (w_hat : M3) : M3 :=
  let w := vee3 w_hat in
  let o := v3norm w in
  let o2 := v3sqn w in
  m3add (m3add m3id (m3scal (so3_exp_c1 o o2) w_hat))
        (m3mul (m3scal (so3_exp_c2 o o2) w_hat) w_hat).

(** SO3.cpp:39-44 constructor SO3(Mat31) *)
Definition so3_of_vec (w : V3) : M3 := so3_exp (hat3 w).

(** SO3.cpp:189-210 the vector read from the column of largest diagonal entry *)
Definition so3_ln_col (Rm : M3) (d : R) : V3 :=
  if Rltb (a11 Rm) (a00 Rm) && Rltb (a22 Rm) (a00 Rm) then
    mkV3 (a00 Rm - d) (1/2 * (a01 Rm + a10 Rm)) (1/2 * (a02 Rm + a20 Rm))
  else if Rltb (a00 Rm) (a11 Rm) && Rltb (a22 Rm) (a11 Rm) then
    mkV3 (1/2 * (a10 Rm + a01 Rm)) (a11 Rm - d) (1/2 * (a12 Rm + a21 Rm))
  else
    mkV3 (1/2 * (a20 Rm + a02 Rm)) (1/2 * (a21 Rm + a12 Rm)) (a22 Rm - d).

(** SO3.cpp:129-234 SO3::ln; returns (res, *ro).
    Line 136 tests [tr > -1.0 + 1e0]. 6e-8 = 6/100000000. *)
Definition so3_ln (Rm : M3) : M3 * R :=
  let tr := (m3trace Rm - 1) * (1/2) in
  let o := acos_d tr in
  if Rltb (-1 + 1) tr then
    let '(d1, o) :=
      match o with
      | None => (0, 0)
      | Some o =>
          if Rltb o (1 / 100000) then (1/2 + o * o / 12, o)
          else (1/2 * o / sin o, o)
      end in
    (m3scal d1 (m3sub Rm (m3tr Rm)), o)
  else
    let o :=
      match o with
      | None => PI
      | Some o => if Rltb (PI - o) (6 / 100000000) then PI else o
      end in
    let d := cos o in
    let w := so3_ln_col Rm d in
    let length := v3norm w in
    let w := if Rltb 0 length then v3scal (o / length) w else v3zero in
    let res := hat3 w in
    let res :=
      if Rltb (m3norm (m3sub (m3sub m3id res) Rm)) (m3norm (m3sub (m3add m3id res) Rm))
      then m3scal (-1) res else res in
    (res, o).

(** SO3.cpp:236-240 ln_vee *)
Definition so3_ln_vee (Rm : M3) : V3 := vee3 (fst (so3_ln Rm)).

(** SO3.cpp:67-76 operator*, mul *)
Definition so3_mul (A B : M3) : M3 := m3mul A B.
(** SO3.cpp:78-88 update_lhs, update_rhs *)
Definition so3_update_lhs (Rm : M3) (dw : V3) : M3 := m3mul (so3_of_vec dw) Rm.
Definition so3_update_rhs (Rm : M3) (dw : V3) : M3 := m3mul Rm (so3_of_vec dw).
(** SO3.cpp:242-245 inv *)
Definition so3_inv (Rm : M3) : M3 := m3tr Rm.
(** SO3.cpp:247-250 adj *)
Definition so3_adj (Rm : M3) : M3 := Rm.
(** SO3.cpp:262-265 distance *)
Definition so3_distance (A B : M3) : R := v3norm (so3_ln_vee (so3_mul A (so3_inv B))).

(** SO3.cpp:280-289 isSO3 *)
Definition isSO3 (Rm : M3) : bool :=
  let det := m3det Rm in
  if Rltb det 0 then false
  else if Rltb (1 / 1000000) (Rabs (det - 1)) then false
  else true.

(** ** Quaternions, SO3.cpp:292-307.  Eigen stores (x,y,z,w). *)
Record Quat : Type := mkQuat { qx : R; qy : R; qz : R; qw : R }.
Definition quat_norm (q : Quat) : R :=
  sqrt (qx q * qx q + qy q * qy q + qz q * qz q + qw q * qw q).
(** Eigen QuaternionBase::normalized (external): divides by the norm when it is positive *)
Definition quat_normalized (q : Quat) : Quat :=
  let n := quat_norm q in
  if Rltb 0 n then mkQuat (qx q / n) (qy q / n) (qz q / n) (qw q / n) else q.
(** Eigen QuaternionBase::toRotationMatrix (external, Eigen/src/Geometry/Quaternion.h) *)
Definition quat_toRotationMatrix (q : Quat) : M3 :=
  let tx := 2 * qx q in let ty := 2 * qy q in let tz := 2 * qz q in
  let twx := tx * qw q in let twy := ty * qw q in let twz := tz * qw q in
  let txx := tx * qx q in let txy := ty * qx q in let txz := tz * qx q in
  let tyy := ty * qy q in let tyz := tz * qy q in let tzz := tz * qz q in
  mkM3 (1 - (tyy + tzz)) (txy - twz) (txz + twy)
       (txy + twz) (1 - (txx + tzz)) (tyz - twx)
       (txz - twy) (tyz + twx) (1 - (txx + tyy)).
(** SO3.cpp:292-298 quat_to_so3 *)
Definition quat_to_so3 (q : Quat) : M3 := quat_toRotationMatrix (quat_normalized q).

(** Eigen quaternion from rotation matrix (external: Quaternion.h,
    quaternionbase_assign_impl<.,3,3>), called by so3_to_quat SO3.cpp:301-307. *)
Definition so3_to_quat (m : M3) : Quat :=
  let t := m3trace m in
  if Rltb 0 t then
    let s := sqrt (t + 1) in
    let w := 1/2 * s in
    let k := (1/2) / s in
    mkQuat ((a21 m - a12 m) * k) ((a02 m - a20 m) * k) ((a10 m - a01 m) * k) w
  else
    let i1 := Rltb (a00 m) (a11 m) in
    let i2 := Rltb (if i1 then a11 m else a00 m) (a22 m) in
    if i2 then (* i=2, j=0, k=1 *)
      let s := sqrt (a22 m - a00 m - a11 m + 1) in
      let k := (1/2) / s in
      mkQuat ((a02 m + a20 m) * k) ((a12 m + a21 m) * k) (1/2 * s) ((a10 m - a01 m) * k)
    else if i1 then (* i=1, j=2, k=0 *)
      let s := sqrt (a11 m - a22 m - a00 m + 1) in
      let k := (1/2) / s in
      mkQuat ((a01 m + a10 m) * k) (1/2 * s) ((a21 m + a12 m) * k) ((a02 m - a20 m) * k)
    else (* i=0, j=1, k=2 *)
      let s := sqrt (a00 m - a11 m - a22 m + 1) in
      let k := (1/2) / s in
      mkQuat (1/2 * s) ((a10 m + a01 m) * k) ((a20 m + a02 m) * k) ((a21 m - a12 m) * k).

(** SO3.cpp:309-316 rpy_to_so3.  Eigen evaluates the product of three AngleAxis
    as quaternions (AngleAxis*AngleAxis is a Quaternion) and converts the result
    to a matrix; Quaternion(AngleAxis) is (sin(a/2) axis, cos(a/2)). *)
Definition quat_of_angle_axis (a : R) (ax : V3) : Quat :=
  mkQuat (sin (1/2 * a) * vx ax) (sin (1/2 * a) * vy ax) (sin (1/2 * a) * vz ax) (cos (1/2 * a)).
(** Eigen quaternion product (Quaternion.h quat_product) *)
Definition quat_mul (a b : Quat) : Quat :=
  mkQuat (qw a * qx b + qx a * qw b + qy a * qz b - qz a * qy b)
         (qw a * qy b + qy a * qw b + qz a * qx b - qx a * qz b)
         (qw a * qz b + qz a * qw b + qx a * qy b - qy a * qx b)
         (qw a * qw b - qx a * qx b - qy a * qy b - qz a * qz b).
Definition rpy_to_so3 (v : V3) : M3 :=
  quat_toRotationMatrix
    (quat_mul (quat_mul (quat_of_angle_axis (vx v) (mkV3 1 0 0))
                        (quat_of_angle_axis (vy v) (mkV3 0 1 0)))
              (quat_of_angle_axis (vz v) (mkV3 0 0 1))).
