(** Model of /repo/src/geometry/SE3cov.cpp. *)
Require Import Reals.
From Verif Require Import Lin SO3 SE3.
Local Open Scope R_scope.

(** SE3cov.hpp:39-129: an SE3 pose and its 6x6 covariance *)
Record SE3Cov : Type := mkSE3Cov { sc_T : M4; sc_cov : M6 }.
(** SE3cov.cpp:6 default constructor (SE3() is the identity, SE3.cpp) *)
Definition se3cov_default : SE3Cov := mkSE3Cov m4id m6id.

(** SE3cov.cpp:12-15 brackets(A) *)
Definition brackets1 (A : M3) : M3 := m3add (m3scal (- m3trace A) m3id) A.
(** SE3cov.cpp:17-20 brackets(A,B) *)
Definition brackets2 (A B : M3) : M3 :=
  m3add (m3mul (brackets1 A) (brackets1 B)) (brackets1 (m3mul B A)).

(** SE3cov.cpp:28-32 compound_2nd_order *)
Definition compound2 (a : SE3Cov) (inc : M4) (inc_cov : M6) : SE3Cov :=
  let adj := se3_adj (sc_T a) in
  mkSE3Cov (se3_mul (sc_T a) inc)
           (m6add (sc_cov a) (m6mul (m6mul adj inc_cov) (m6tr adj))).
(** SE3cov.cpp:34-37 overload; 105-113 mul and operator* call it *)
Definition compound2_cov (a b : SE3Cov) : SE3Cov := compound2 a (sc_T b) (sc_cov b).
Definition se3cov_mul (a b : SE3Cov) : SE3Cov := compound2_cov a b.

(** SE3cov.cpp:48-55 A_1 *)
Definition cov4_A1 (s1 : M6) : M6 :=
  let tt := brackets1 (mTL s1) in
  mkM6 tt m3zero (brackets1 (m3add (mBL s1) (mTR s1))) tt.
(** SE3cov.cpp:57-64 A_2 *)
Definition cov4_A2 (s2 : M6) : M6 :=
  let tt := brackets1 (mTL s2) in
  mkM6 tt m3zero (brackets1 (m3add (mBL s2) (m3tr (mBL s2)))) tt.
(** SE3cov.cpp:66-81 B *)
Definition cov4_B (s1 s2 : M6) : M6 :=
  let rr := m3add (m3add (m3add (brackets2 (mTL s1) (mBR s2)) (brackets2 (mTR s1) (mBL s2)))
                         (brackets2 (mBL s1) (mTR s2))) (brackets2 (mBR s1) (mTL s2)) in
  let rp := m3add (brackets2 (mTL s1) (mTR s2)) (brackets2 (mBL s1) (mTL s2)) in
  mkM6 (brackets2 (mTL s1) (mTL s2)) (m3tr rp) rp rr.
(** SE3cov.cpp:40-90 compound_4th_order *)
Definition compound4 (a : SE3Cov) (inc : M4) (inc_cov : M6) : SE3Cov :=
  let s1 := sc_cov a in
  let adj := se3_adj (sc_T a) in
  let s2 := m6mul (m6mul adj inc_cov) (m6tr adj) in
  let A1 := cov4_A1 s1 in
  let A2 := cov4_A2 s2 in
  let B := cov4_B s1 s2 in
  let tmp := m6add (m6add (m6add s1 s2)
     (m6scal (1 / 12) (m6add (m6add (m6add (m6mul A1 s2) (m6mul s2 (m6tr A1))) (m6mul A2 s1)) (m6mul s1 (m6tr A2)))))
     (m6scal (1 / 4) B) in
  mkSE3Cov (se3_mul (sc_T a) inc) tmp.
(** SE3cov.cpp:92-95 *)
Definition compound4_cov (a b : SE3Cov) : SE3Cov := compound4 a (sc_T b) (sc_cov b).

(** SE3cov.cpp:115-122 curly_wedge *)
Definition curly_wedge (xi : V6) : M6 :=
  mkM6 (hat3 (v6w xi)) m3zero (hat3 (v6v xi)) (hat3 (v6w xi)).
