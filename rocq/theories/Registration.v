(** Model of the point cloud registration and plane estimation of
    /repo/src/PCRegistration: arun.cpp, gicp.cpp, weight_point.cpp,
    estimate_plane.cpp, and of the Python entry points of
    /repo/mrobpy/PCRegistrationPy.cpp.
    An Nx3 array is the list of its rows.  Release build: the asserts on sizes
    are off. *)
Require Import Reals List Arith Bool.
From Verif Require Import Lin SO3 SE3.
Import ListNotations.
Local Open Scope R_scope.

(** Eigen: [M.colwise().sum()] of an Nx3 array *)
Definition v3sum (X : list V3) : V3 := fold_right v3add v3zero X.
Definition m3sum (L : list M3) : M3 := fold_right m3add m3zero L.
(** arun.cpp:56-59, estimate_plane.cpp:46-47, 84-85:
    [c = X.colwise().sum(); c /= (double)N] *)
Definition mean (X : list V3) : V3 := v3scal (/ INR (length X)) (v3sum X).
(** arun.cpp:62-63, estimate_plane.cpp:50: [X.rowwise() - c] *)
Definition centred (X : list V3) : list V3 := map (fun x => v3sub x (mean X)) X.
(** arun.cpp:67, estimate_plane.cpp:51: [qx.transpose() * qy], sum of the outer
    products of corresponding rows (used with equally many rows only) *)
Definition gram (qx qy : list V3) : M3 :=
  m3sum (map (fun p => m3outer (fst p) (snd p)) (combine qx qy)).

(** Eigen::JacobiSVD, an external kernel: U, the singular values, V. *)
Record svd : Type := mkSvd { svd_U : M3; svd_D : V3; svd_V : M3 }.

(** arun.cpp:79-88 the loop over the singular values: [true] = the early
    [return 0].  1e-6 = 1/1000000. *)
Definition too_close (l l_prev : R) : bool := Rltb (Rabs (l - l_prev)) (1 / 1000000).
Definition arun_reject (D : V3) : bool :=
  if too_close (vy D) (vx D) then true else too_close (vz D) (vy D).

(** arun.cpp:101 [Vn << V.topLeftCorner<3,2>(), -V.topRightCorner<3,1>()] *)
Definition flip_last (V : M3) : M3 :=
  mkM3 (a00 V) (a01 V) (- a02 V)
       (a10 V) (a11 V) (- a12 V)
       (a20 V) (a21 V) (- a22 V).
(** arun.cpp:92-104 the rotation *)
Definition arun_rotation (s : svd) : M3 :=
  let Rm := m3mul (svd_V s) (m3tr (svd_U s)) in
  if Rltb (m3det Rm) 0 then m3mul (flip_last (svd_V s)) (m3tr (svd_U s)) else Rm.

(** arun.cpp:34-115 PCRegistration::arun: (returned value, new T).
    [None]: the arrays have different numbers of rows, the product of line 67
    then reads out of bounds. *)
Definition arun (jacobi : M3 -> svd) (X Y : list V3) (T : M4) : option (nat * M4) :=
  if negb (Nat.eqb (length Y) (length X)) then None
  else
    let cx := mean X in
    let cy := mean Y in
    let H := gram (centred X) (centred Y) in
    let s := jacobi H in
    if arun_reject (svd_D s) then Some (0%nat, T)
    else
      let Rm := arun_rotation s in
      let t := v3sub cy (m3app Rm cx) in
      Some (1%nat, mkM4 Rm t v3zero 1).

(** PCRegistrationPy.cpp:44-49 arun_solve: default SE3, result code dropped *)
Definition arun_py (jacobi : M3 -> svd) (X Y : list V3) : option M4 :=
  option_map snd (arun jacobi X Y m4id).

(** ** Iterative registration *)
(** gicp.cpp:62, weight_point.cpp:60: Jr = [hat3(Txi), -I] (3x6) as blocks *)
Definition reg_jac (Tx : V3) : M3 * M3 := (hat3 Tx, m3opp m3id).
(** gicp.cpp:63: row vector r' Li Jr as a 6-vector *)
Definition reg_grad (L : M3) (r Tx : V3) : V6 :=
  let '(A, B) := reg_jac Tx in
  let rL := m3appT r L in
  mkV6 (m3appT rL A) (m3appT rL B).
(** gicp.cpp:67: Jr' Li Jr *)
Definition reg_hess (L : M3) (Tx : V3) : M6 :=
  let '(A, B) := reg_jac Tx in
  mkM6 (m3mul (m3mul (m3tr A) L) A) (m3mul (m3mul (m3tr A) L) B)
       (m3mul (m3mul (m3tr B) L) A) (m3mul (m3mul (m3tr B) L) B).

(** one correspondence: x, y and the information matrix as a function of T
    (its value at T for gicp; weight times identity for weighted_point) *)
Definition corr : Type := (V3 * V3 * (M4 -> M3))%type.
(** gicp.cpp:58: (covY + R covX R').inverse(); 3x3 inverse: external *)
Definition gicp_info (inv3 : M3 -> M3) (CX CY : M3) : M4 -> M3 :=
  fun T => inv3 (m3add CY (m3mul (m3mul (mR T) CX) (m3tr (mR T)))).
(** weight_point.cpp:61, 65: weight(i) * ..., i.e. the information w I *)
Definition weight_info (w : R) : M4 -> M3 := fun _ => m3scal w m3id.

(** gicp.cpp:50-69, weight_point.cpp:49-67: the loop over the points *)
Definition reg_accum (T : M4) (acc : V6 * M6) (c : corr) : V6 * M6 :=
  let '(J, H) := acc in
  let '(x, y, info) := c in
  let Tx := se3_transform T x in
  let r := v3sub y Tx in
  let L := info T in
  (v6add J (reg_grad L r Tx), m6add H (reg_hess L Tx)).
Definition reg_system (cs : list corr) (T : M4) : V6 * M6 :=
  fold_left (reg_accum T) cs (v6zero, m6zero).

(** gicp.cpp:46-78, weight_point.cpp:45-76: [do ... while].  [left] is 20 - iters
    at the head of the body.  [inv6] (Eigen's inverse of a 6x6 matrix, external)
    returns [None] when the result is not finite; then T is no longer finite
    ([None] from there on), and [junk k] says whether the comparison
    [deltaUpdate > tol] of pass k is true (inf) or false (nan).
    Result: (number of iterations, T). *)
Fixpoint reg_loop (inv6 : M6 -> option M6) (junk : nat -> bool) (tol : R) (cs : list corr)
    (left iters : nat) (T : option M4) : nat * option M4 :=
  match left with
  | O => (iters, T)
  | S left' =>
      let dxi := match T with
                 | None => None
                 | Some T0 =>
                     let '(J, H) := reg_system cs T0 in
                     match inv6 H with
                     | None => None
                     | Some Hi => Some (v6opp (m6app Hi J))
                     end
                 end in
      let T' := match T, dxi with
                | Some T0, Some d => Some (se3_update_lhs T0 d)
                | _, _ => None
                end in
      let again := match dxi with
                   | Some d => Rltb tol (v6norm d)
                   | None => junk iters
                   end in
      let iters' := S iters in
      if again && (iters' <? 20)%nat then reg_loop inv6 junk tol cs left' iters' T'
      else (iters', T')
  end.

(** gicp.cpp:33-79: covX and covY are stacks of N 3x3 blocks, kept as lists of
    blocks.  [None]: some array has fewer blocks or rows than X has rows (read
    out of bounds); extra rows of Y, covX, covY are not read. *)
Definition gicp_corrs (inv3 : M3 -> M3) (X Y : list V3) (CX CY : list M3) : list corr :=
  map (fun p => (fst (fst p), snd (fst p), gicp_info inv3 (fst (snd p)) (snd (snd p))))
      (combine (combine X Y) (combine CX CY)).
Definition gicp (inv3 : M3 -> M3) (inv6 : M6 -> option M6) (junk : nat -> bool)
    (X Y : list V3) (CX CY : list M3) (T : M4) (tol : R) : option (nat * option M4) :=
  if (length X <=? length Y)%nat && (length X <=? length CX)%nat && (length X <=? length CY)%nat
  then Some (reg_loop inv6 junk tol (gicp_corrs inv3 X Y CX CY) 20 0 (Some T))
  else None.

(** weight_point.cpp:33-77 *)
Definition weighted_corrs (X Y : list V3) (ws : list R) : list corr :=
  map (fun p => (fst (fst p), snd (fst p), weight_info (snd p))) (combine (combine X Y) ws).
Definition weighted_point (inv6 : M6 -> option M6) (junk : nat -> bool)
    (X Y : list V3) (ws : list R) (T : M4) (tol : R) : option (nat * option M4) :=
  if (length X <=? length Y)%nat && (length X <=? length ws)%nat
  then Some (reg_loop inv6 junk tol (weighted_corrs X Y ws) 20 0 (Some T))
  else None.

(** ** Plane estimation *)
(** Eigen::SelfAdjointEigenSolver, an external kernel: eigenvalues in
    increasing order and the matrix whose columns are the eigenvectors *)
Record eigen : Type := mkEigen { eig_vals : V3; eig_vecs : M3 }.
Definition col0 (V : M3) : V3 := mkV3 (a00 V) (a10 V) (a20 V).
(** estimate_plane.cpp:31-66 estimate_plane_centered.
    [None]: no rows, the division by N = 0 gives NaN. *)
Definition estimate_plane (solver : M3 -> eigen) (X : list V3) : option V4 :=
  match X with
  | [] => None
  | _ =>
      let c := mean X in
      let C := gram (centred X) (centred X) in
      let normal := col0 (eig_vecs (solver C)) in
      Some (mkV4 normal (- v3dot c normal))
  end.
(** estimate_plane.cpp:70-74 *)
Definition estimate_normal (solver : M3 -> eigen) (X : list V3) : option V3 :=
  option_map v4h (estimate_plane solver X).
(** estimate_plane.cpp:77-87 *)
Definition estimate_centroid (X : list V3) : option V3 :=
  match X with [] => None | _ => Some (mean X) end.
