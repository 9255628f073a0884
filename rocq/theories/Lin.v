(** Small dense linear algebra: the fixed-size Eigen types of
    /repo/src/common/mrob/matrix_base.hpp:33-91 (Mat3, Mat31, Mat4, Mat41, Mat6,
    Mat61) with exact real arithmetic instead of [double].
    Eigen is an external library (not in the tree); the operations below are
    its documented semantics.  4x4 and 6x6 matrices are kept as 2x2 blocks. *)
Require Import Reals.
Local Open Scope R_scope.

(** ** 3-vectors (Mat31) *)
Record V3 : Type := mkV3 { vx : R; vy : R; vz : R }.

(** ** 3x3 matrices (Mat3), row by row *)
Record M3 : Type := mkM3 {
  a00 : R; a01 : R; a02 : R;
  a10 : R; a11 : R; a12 : R;
  a20 : R; a21 : R; a22 : R }.

Definition v3zero : V3 := mkV3 0 0 0.
Definition v3add (u v : V3) : V3 := mkV3 (vx u + vx v) (vy u + vy v) (vz u + vz v).
Definition v3sub (u v : V3) : V3 := mkV3 (vx u - vx v) (vy u - vy v) (vz u - vz v).
Definition v3opp (u : V3) : V3 := mkV3 (- vx u) (- vy u) (- vz u).
Definition v3scal (k : R) (u : V3) : V3 := mkV3 (k * vx u) (k * vy u) (k * vz u).
Definition v3dot (u v : V3) : R := vx u * vx v + vy u * vy v + vz u * vz v.
Definition v3sqn (u : V3) : R := v3dot u u.          (* squaredNorm() *)
Definition v3norm (u : V3) : R := sqrt (v3sqn u).    (* norm() *)
Definition v3cross (u v : V3) : V3 :=
  mkV3 (vy u * vz v - vz u * vy v) (vz u * vx v - vx u * vz v) (vx u * vy v - vy u * vx v).

Definition m3id : M3 := mkM3 1 0 0 0 1 0 0 0 1.
Definition m3zero : M3 := mkM3 0 0 0 0 0 0 0 0 0.
Definition m3add (A B : M3) : M3 :=
  mkM3 (a00 A + a00 B) (a01 A + a01 B) (a02 A + a02 B)
       (a10 A + a10 B) (a11 A + a11 B) (a12 A + a12 B)
       (a20 A + a20 B) (a21 A + a21 B) (a22 A + a22 B).
Definition m3sub (A B : M3) : M3 :=
  mkM3 (a00 A - a00 B) (a01 A - a01 B) (a02 A - a02 B)
       (a10 A - a10 B) (a11 A - a11 B) (a12 A - a12 B)
       (a20 A - a20 B) (a21 A - a21 B) (a22 A - a22 B).
Definition m3scal (k : R) (A : M3) : M3 :=
  mkM3 (k * a00 A) (k * a01 A) (k * a02 A)
       (k * a10 A) (k * a11 A) (k * a12 A)
       (k * a20 A) (k * a21 A) (k * a22 A).
Definition m3opp (A : M3) : M3 :=
  mkM3 (- a00 A) (- a01 A) (- a02 A) (- a10 A) (- a11 A) (- a12 A)
       (- a20 A) (- a21 A) (- a22 A).
Definition m3mul (A B : M3) : M3 :=
  mkM3 (a00 A * a00 B + a01 A * a10 B + a02 A * a20 B)
       (a00 A * a01 B + a01 A * a11 B + a02 A * a21 B)
       (a00 A * a02 B + a01 A * a12 B + a02 A * a22 B)
       (a10 A * a00 B + a11 A * a10 B + a12 A * a20 B)
       (a10 A * a01 B + a11 A * a11 B + a12 A * a21 B)
       (a10 A * a02 B + a11 A * a12 B + a12 A * a22 B)
       (a20 A * a00 B + a21 A * a10 B + a22 A * a20 B)
       (a20 A * a01 B + a21 A * a11 B + a22 A * a21 B)
       (a20 A * a02 B + a21 A * a12 B + a22 A * a22 B).
Definition m3tr (A : M3) : M3 :=
  mkM3 (a00 A) (a10 A) (a20 A) (a01 A) (a11 A) (a21 A) (a02 A) (a12 A) (a22 A).
Definition m3trace (A : M3) : R := a00 A + a11 A + a22 A.
Definition m3det (A : M3) : R :=
  a00 A * (a11 A * a22 A - a12 A * a21 A)
  - a01 A * (a10 A * a22 A - a12 A * a20 A)
  + a02 A * (a10 A * a21 A - a11 A * a20 A).
Definition m3app (A : M3) (v : V3) : V3 :=
  mkV3 (a00 A * vx v + a01 A * vy v + a02 A * vz v)
       (a10 A * vx v + a11 A * vy v + a12 A * vz v)
       (a20 A * vx v + a21 A * vy v + a22 A * vz v).
(** row vector times matrix: v^T A, returned as a vector *)
Definition m3appT (v : V3) (A : M3) : V3 := m3app (m3tr A) v.
(** u v^T *)
Definition m3outer (u v : V3) : M3 :=
  mkM3 (vx u * vx v) (vx u * vy v) (vx u * vz v)
       (vy u * vx v) (vy u * vy v) (vy u * vz v)
       (vz u * vx v) (vz u * vy v) (vz u * vz v).
(** squared Frobenius norm; [norm()] of an Eigen matrix is its square root *)
Definition m3frob2 (A : M3) : R :=
  a00 A * a00 A + a01 A * a01 A + a02 A * a02 A +
  a10 A * a10 A + a11 A * a11 A + a12 A * a12 A +
  a20 A * a20 A + a21 A * a21 A + a22 A * a22 A.
Definition m3norm (A : M3) : R := sqrt (m3frob2 A).

(** ** 4x4 matrices (Mat4) as blocks [[mR, mt]; [mb^T, mc]] *)
Record M4 : Type := mkM4 { mR : M3; mt : V3; mb : V3; mc : R }.
(** 4-vectors (Mat41) as (head<3>, last) *)
Record V4 : Type := mkV4 { v4h : V3; v4l : R }.

Definition v4zero : V4 := mkV4 v3zero 0.
Definition v4add (u v : V4) : V4 := mkV4 (v3add (v4h u) (v4h v)) (v4l u + v4l v).
Definition v4sub (u v : V4) : V4 := mkV4 (v3sub (v4h u) (v4h v)) (v4l u - v4l v).
Definition v4scal (k : R) (u : V4) : V4 := mkV4 (v3scal k (v4h u)) (k * v4l u).
Definition v4dot (u v : V4) : R := v3dot (v4h u) (v4h v) + v4l u * v4l v.
Definition m4id : M4 := mkM4 m3id v3zero v3zero 1.
Definition m4zero : M4 := mkM4 m3zero v3zero v3zero 0.
Definition m4mul (A B : M4) : M4 :=
  mkM4 (m3add (m3mul (mR A) (mR B)) (m3outer (mt A) (mb B)))
       (v3add (m3app (mR A) (mt B)) (v3scal (mc B) (mt A)))
       (v3add (m3appT (mb A) (mR B)) (v3scal (mc A) (mb B)))
       (v3dot (mb A) (mt B) + mc A * mc B).
Definition m4add (A B : M4) : M4 :=
  mkM4 (m3add (mR A) (mR B)) (v3add (mt A) (mt B)) (v3add (mb A) (mb B)) (mc A + mc B).
Definition m4sub (A B : M4) : M4 :=
  mkM4 (m3sub (mR A) (mR B)) (v3sub (mt A) (mt B)) (v3sub (mb A) (mb B)) (mc A - mc B).
Definition m4scal (k : R) (A : M4) : M4 :=
  mkM4 (m3scal k (mR A)) (v3scal k (mt A)) (v3scal k (mb A)) (k * mc A).
Definition m4tr (A : M4) : M4 := mkM4 (m3tr (mR A)) (mb A) (mt A) (mc A).
Definition m4app (A : M4) (v : V4) : V4 :=
  mkV4 (v3add (m3app (mR A) (v4h v)) (v3scal (v4l v) (mt A)))
       (v3dot (mb A) (v4h v) + mc A * v4l v).

(** ** 6-vectors (Mat61) as (head<3>, tail<3>) and 6x6 matrices (Mat6) as blocks *)
Record V6 : Type := mkV6 { v6w : V3; v6v : V3 }.
Record M6 : Type := mkM6 { mTL : M3; mTR : M3; mBL : M3; mBR : M3 }.

Definition v6zero : V6 := mkV6 v3zero v3zero.
Definition v6add (u v : V6) : V6 := mkV6 (v3add (v6w u) (v6w v)) (v3add (v6v u) (v6v v)).
Definition v6sub (u v : V6) : V6 := mkV6 (v3sub (v6w u) (v6w v)) (v3sub (v6v u) (v6v v)).
Definition v6opp (u : V6) : V6 := mkV6 (v3opp (v6w u)) (v3opp (v6v u)).
Definition v6scal (k : R) (u : V6) : V6 := mkV6 (v3scal k (v6w u)) (v3scal k (v6v u)).
Definition v6dot (u v : V6) : R := v3dot (v6w u) (v6w v) + v3dot (v6v u) (v6v v).
Definition v6norm (u : V6) : R := sqrt (v6dot u u).
Definition m6id : M6 := mkM6 m3id m3zero m3zero m3id.
Definition m6zero : M6 := mkM6 m3zero m3zero m3zero m3zero.
Definition m6add (A B : M6) : M6 :=
  mkM6 (m3add (mTL A) (mTL B)) (m3add (mTR A) (mTR B))
       (m3add (mBL A) (mBL B)) (m3add (mBR A) (mBR B)).
Definition m6scal (k : R) (A : M6) : M6 :=
  mkM6 (m3scal k (mTL A)) (m3scal k (mTR A)) (m3scal k (mBL A)) (m3scal k (mBR A)).
Definition m6mul (A B : M6) : M6 :=
  mkM6 (m3add (m3mul (mTL A) (mTL B)) (m3mul (mTR A) (mBL B)))
       (m3add (m3mul (mTL A) (mTR B)) (m3mul (mTR A) (mBR B)))
       (m3add (m3mul (mBL A) (mTL B)) (m3mul (mBR A) (mBL B)))
       (m3add (m3mul (mBL A) (mTR B)) (m3mul (mBR A) (mBR B))).
Definition m6tr (A : M6) : M6 :=
  mkM6 (m3tr (mTL A)) (m3tr (mBL A)) (m3tr (mTR A)) (m3tr (mBR A)).
Definition m6app (A : M6) (v : V6) : V6 :=
  mkV6 (v3add (m3app (mTL A) (v6w v)) (m3app (mTR A) (v6v v)))
       (v3add (m3app (mBL A) (v6w v)) (m3app (mBR A) (v6v v))).
