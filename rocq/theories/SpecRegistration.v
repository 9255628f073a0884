(** Specifications for registration and plane estimation: textbook notions. *)
Require Import Reals List.
From Verif Require Import Lin SO3 SE3 SpecGeom Sums Registration.
Import ListNotations.
Local Open Scope R_scope.

Definition diag3 (d : V3) : M3 := mkM3 (vx d) 0 0 0 (vy d) 0 0 0 (vz d).
(** an exact singular value decomposition H = U D V^T *)
Definition svd_of (H : M3) (s : svd) : Prop :=
  orthogonal (svd_U s) /\ orthogonal (svd_V s) /\
  H = m3mul (m3mul (svd_U s) (diag3 (svd_D s))) (m3tr (svd_V s)) /\
  vx (svd_D s) >= vy (svd_D s) /\ vy (svd_D s) >= vz (svd_D s) /\ vz (svd_D s) >= 0.
(** the SVD routine is exact on the matrix of these correspondences *)
Definition exact_svd (f : M3 -> svd) (X Y : list V3) : Prop :=
  svd_of (gram (centred X) (centred Y)) (f (gram (centred X) (centred Y))).
(** an exact eigendecomposition of a symmetric matrix, smallest eigenvalue first *)
Definition eigen_of (C : M3) (e : eigen) : Prop :=
  orthogonal (eig_vecs e) /\
  C = m3mul (m3mul (eig_vecs e) (diag3 (eig_vals e))) (m3tr (eig_vecs e)) /\
  vx (eig_vals e) <= vy (eig_vals e) /\ vy (eig_vals e) <= vz (eig_vals e).
Definition exact_eigen (f : M3 -> eigen) (X : list V3) : Prop :=
  eigen_of (gram (centred X) (centred X)) (f (gram (centred X) (centred X))).

(** apply a rigid motion to a point *)
Definition move (T : M4) (p : V3) : V3 := v3add (m3app (mR T) p) (mt T).
(** sum of |y_i - T x_i|^2 *)
Fixpoint sq_error (T : M4) (X Y : list V3) : R :=
  match X, Y with
  | x :: X, y :: Y => v3sqn (v3sub y (move T x)) + sq_error T X Y
  | _, _ => 0
  end.
(** T is a least squares alignment among all rigid motions *)
Definition best_alignment (X Y : list V3) (T : M4) : Prop :=
  rigid T /\ forall T', rigid T' -> sq_error T X Y <= sq_error T' X Y.
(** the correspondences determine the alignment *)
Definition determined (X Y : list V3) (T : M4) : Prop :=
  best_alignment X Y T /\ forall T', best_alignment X Y T' -> T' = T.
(** all points on one line *)
Definition collinear (X : list V3) : Prop :=
  exists p u, forall x, In x X -> exists s, x = v3add p (v3scal s u).

(** sum of (n . x + d)^2: squared distances to the plane when |n| = 1 *)
Definition plane_error (p : V4) (X : list V3) : R :=
  lsum X (fun x => (v3dot (v4h p) x + v4l p) * (v3dot (v4h p) x + v4l p)).

(** sum of r^T L r over correspondences (x, y, L), with r = y - T x *)
Definition quad3 (L : M3) (u v : V3) : R := v3dot u (m3app L v).
Definition weighted_error (cs : list (V3 * V3 * M3)) (T : M4) : R :=
  lsum cs (fun c => let '(x, y, L) := c in quad3 L (v3sub y (move T x)) (v3sub y (move T x))).
(** the same with every residual linearised at T in the direction xi of
    T <- exp(xi) T: the point T x moves with velocity w x (T x) + v *)
Definition linear_error (cs : list (V3 * V3 * M3)) (T : M4) (xi : V6) : R :=
  lsum cs (fun c => let '(x, y, L) := c in
    let r := v3sub (v3sub y (move T x)) (v3add (v3cross (v6w xi) (move T x)) (v6v xi)) in quad3 L r r).
(** a Gauss-Newton step *)
Definition gn_step (cs : list (V3 * V3 * M3)) (T : M4) (d : V6) : Prop :=
  forall xi, linear_error cs T d <= linear_error cs T xi.
Definition sym3 (A : M3) : Prop := m3tr A = A.
Definition psd3 (A : M3) : Prop := forall v, 0 <= quad3 A v v.
(** correspondences with the weight w times identity; with the inverse of the
    covariance of y - T x *)
Definition weighted_at (X Y : list V3) (ws : list R) : list (V3 * V3 * M3) :=
  map (fun p => (fst (fst p), snd (fst p), m3scal (snd p) m3id)) (combine (combine X Y) ws).
Definition gicp_at (inv3 : M3 -> M3) (X Y : list V3) (CX CY : list M3) (T : M4) : list (V3 * V3 * M3) :=
  map (fun p => (fst (fst p), snd (fst p),
                 inv3 (m3add (snd (snd p)) (m3mul (m3mul (mR T) (fst (snd p))) (m3tr (mR T))))))
      (combine (combine X Y) (combine CX CY)).
(** the run of an iterative registration: a list of steps, each a Gauss-Newton
    step for the correspondences at the current T, until a step of norm <= tol
    or the twentieth *)
Inductive gn_run (at_ : M4 -> list (V3 * V3 * M3)) (tol : R) : nat -> M4 -> nat -> M4 -> Prop :=
| gn_stop n T d : gn_step (at_ T) T d -> v6norm d <= tol \/ S n = 20%nat ->
    gn_run at_ tol n T (S n) (se3_update_lhs T d)
| gn_more n T d n' T' : gn_step (at_ T) T d -> tol < v6norm d -> (S n < 20)%nat ->
    gn_run at_ tol (S n) (se3_update_lhs T d) n' T' -> gn_run at_ tol n T n' T'.
