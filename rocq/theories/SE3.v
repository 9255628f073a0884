(** Model of /repo/src/geometry/SE3.cpp (SE3 = its 4x4 matrix T_). *)
Require Import Reals List Bool.
From Verif Require Import Lin SO3.
Local Open Scope R_scope.

(** SE3.cpp:46-56 constructors from rotation and translation *)
Definition se3_of_Rt (Rm : M3) (t : V3) : M4 := mkM4 Rm t v3zero 1.

(** SE3.cpp:96-102 vee6 *)
Definition vee6 (X : M4) : V6 :=
  mkV6 (mkV3 (- a12 (mR X)) (a02 (mR X)) (- a01 (mR X)))
       (mkV3 (vx (mt X)) (vy (mt X)) (vz (mt X))).

(** SE3.cpp:104-112 hat6 *)
Definition hat6 (xi : V6) : M4 :=
  mkM4 (mkM3 0 (- vz (v6w xi)) (vy (v6w xi))
             (vz (v6w xi)) 0 (- vx (v6w xi))
             (- vy (v6w xi)) (vx (v6w xi)) 0)
       (mkV3 (vx (v6v xi)) (vy (v6v xi)) (vz (v6v xi)))
       v3zero 0.

(** SE3.cpp:128-141 coefficients of V in SE3::exp *)
Definition se3_exp_c2 (o o2 : R) : R :=
  if Rltb (1 / 1000) o then (1 - cos o) / o2 else 1/2 - o2 / 24.
Definition se3_exp_c3 (o o2 : R) : R :=
  if Rltb (1 / 1000) o then (o - sin o) / o2 / o else 1 / 6 - o2 / 120.

(** SE3.cpp:114-152 SE3::exp *)
Definition se3_exp (xi_hat : M4) : M4 :=
  let xi := vee6 xi_hat in
  let w := v6w xi in
  let v := v6v xi in
  let rotation := so3_of_vec w in
  let w_hat := mR xi_hat in
  let o := v3norm w in
  let o2 := v3sqn w in
  let c2 := se3_exp_c2 o o2 in
  let c3 := se3_exp_c3 o o2 in
  let V := m3add m3id (m3add (m3scal c2 w_hat) (m3mul (m3scal c3 w_hat) w_hat)) in
  let t := m3app V v in
  mkM4 rotation t v3zero 1.

(** SE3.cpp:37-41 constructor SE3(Mat61) *)
Definition se3_of_vec (xi : V6) : M4 := se3_exp (hat6 xi).

(** SE3.cpp:165-179 coefficient k1 in SE3::ln *)
Definition se3_ln_k1 (o : R) : R :=
  if Rltb (5 / 1000) o then
    let c1 := sin o in
    let c2 := (1 - cos o) / o in
    1 / o / o * (1 - 1/2 * c1 / c2)
  else 1 / 12 + o * o / 720.

(** SE3.cpp:154-190 SE3::ln *)
Definition se3_ln (T : M4) : M4 :=
  let '(w_hat, o) := so3_ln (mR T) in
  let k1 := se3_ln_k1 o in
  let Vinv := m3add m3id (m3add (m3scal (-(1/2)) w_hat) (m3mul (m3scal k1 w_hat) w_hat)) in
  let v := m3app Vinv (mt T) in
  mkM4 w_hat v v3zero 0.

(** SE3.cpp:192-196 ln_vee *)
Definition se3_ln_vee (T : M4) : V6 := vee6 (se3_ln T).

(** SE3.cpp:73-83 operator*, mul *)
Definition se3_mul (A B : M4) : M4 := m4mul A B.
(** SE3.cpp:85-94 update_lhs, update_rhs *)
Definition se3_update_lhs (T : M4) (dxi : V6) : M4 := m4mul (se3_of_vec dxi) T.
Definition se3_update_rhs (T : M4) (dxi : V6) : M4 := m4mul T (se3_of_vec dxi).

(** SE3.cpp:198-201 transform *)
Definition se3_transform (T : M4) (p : V3) : V3 := v3add (m3app (mR T) p) (mt T).

(** SE3.cpp:204-212 transform_array: an Nx3 array is a list of rows; the loop
    fills row i with the transform of row i. *)
Fixpoint se3_transform_array (T : M4) (P : list V3) : list V3 :=
  match P with
  | nil => nil
  | p :: P' => se3_transform T p :: se3_transform_array T P'
  end.

(** SE3.cpp:215-224 inv *)
Definition se3_inv (T : M4) : M4 :=
  let Rt := m3tr (mR T) in
  mkM4 Rt (m3app (m3opp Rt) (mt T)) v3zero 1.

(** SE3.cpp:226-234 adj *)
Definition se3_adj (T : M4) : M6 :=
  mkM6 (mR T) m3zero (m3mul (hat3 (mt T)) (mR T)) (mR T).

(** SE3.cpp:257-271 distances *)
Definition se3_distance (A B : M4) : R := v6norm (se3_ln_vee (se3_mul A (se3_inv B))).
Definition se3_distance_rotation (A B : M4) : R :=
  v3norm (so3_ln_vee (m3mul (mR A) (m3tr (mR B)))).
Definition se3_distance_trans (A B : M4) : R := v3norm (v3sub (mt A) (mt B)).

(** SE3.cpp:284-288 regenerate *)
Definition se3_regenerate (T : M4) : M4 := se3_exp (se3_ln T).

(** SE3.cpp:290-299 isSE3: note the sum of signed differences of the last row *)
Definition isSE3 (T : M4) : bool :=
  if negb (isSO3 (mR T)) then false
  else if Rltb (1 / 1000000)
            ((vx (mb T) - 0) + (vy (mb T) - 0) + (vz (mb T) - 0) + (mc T - 1))
  then false else true.
