(** Independent specifications for the geometry properties: textbook notions,
    none of them mentions the code. *)
Require Import Reals List.
From Verif Require Import Lin.
Import ListNotations.
Local Open Scope R_scope.

(** SO(3): orthogonal with determinant one. *)
Definition orthogonal (A : M3) : Prop := m3mul (m3tr A) A = m3id.
Definition rotation (A : M3) : Prop := orthogonal A /\ m3det A = 1.

(** SE(3): a rotation, a translation and last row (0 0 0 1). *)
Definition rigid (T : M4) : Prop := rotation (mR T) /\ mb T = v3zero /\ mc T = 1.

(** so(3), se(3) *)
Definition skew (W : M3) : Prop := m3tr W = m3opp W.
Definition is_se3_alg (X : M4) : Prop := skew (mR X) /\ mb X = v3zero /\ mc X = 0.

(** The angle of a rotation: the unique theta in [0,pi] with trace = 1 + 2 cos theta. *)
Definition rotation_angle (A : M3) (theta : R) : Prop :=
  0 <= theta <= PI /\ m3trace A = 1 + 2 * cos theta.

(** Every entry of A is at most e in absolute value. *)
Definition m3_within (e : R) (A : M3) : Prop :=
  Rabs (a00 A) <= e /\ Rabs (a01 A) <= e /\ Rabs (a02 A) <= e /\
  Rabs (a10 A) <= e /\ Rabs (a11 A) <= e /\ Rabs (a12 A) <= e /\
  Rabs (a20 A) <= e /\ Rabs (a21 A) <= e /\ Rabs (a22 A) <= e.
Definition v3_within (e : R) (u : V3) : Prop :=
  Rabs (vx u) <= e /\ Rabs (vy u) <= e /\ Rabs (vz u) <= e.

(** D is the derivative at s of the matrix-valued function F. *)
Definition m3_derivative (F : R -> M3) (s : R) (D : M3) : Prop :=
  derivable_pt_lim (fun x => a00 (F x)) s (a00 D) /\
  derivable_pt_lim (fun x => a01 (F x)) s (a01 D) /\
  derivable_pt_lim (fun x => a02 (F x)) s (a02 D) /\
  derivable_pt_lim (fun x => a10 (F x)) s (a10 D) /\
  derivable_pt_lim (fun x => a11 (F x)) s (a11 D) /\
  derivable_pt_lim (fun x => a12 (F x)) s (a12 D) /\
  derivable_pt_lim (fun x => a20 (F x)) s (a20 D) /\
  derivable_pt_lim (fun x => a21 (F x)) s (a21 D) /\
  derivable_pt_lim (fun x => a22 (F x)) s (a22 D).
Definition v3_derivative (F : R -> V3) (s : R) (D : V3) : Prop :=
  derivable_pt_lim (fun x => vx (F x)) s (vx D) /\
  derivable_pt_lim (fun x => vy (F x)) s (vy D) /\
  derivable_pt_lim (fun x => vz (F x)) s (vz D).
Definition m4_derivative (F : R -> M4) (s : R) (D : M4) : Prop :=
  m3_derivative (fun x => mR (F x)) s (mR D) /\
  v3_derivative (fun x => mt (F x)) s (mt D) /\
  v3_derivative (fun x => mb (F x)) s (mb D) /\
  derivable_pt_lim (fun x => mc (F x)) s (mc D).

(** The curve s |-> E s is the one-parameter group generated by W:
    E(0) = I and E' = W E everywhere. *)
Definition is_exp_curve3 (W : M3) (E : R -> M3) : Prop :=
  E 0 = m3id /\ forall s, m3_derivative E s (m3mul W (E s)).
Definition is_exp_curve4 (X : M4) (E : R -> M4) : Prop :=
  E 0 = m4id /\ forall s, m4_derivative E s (m4mul X (E s)).

(** M is the matrix exponential of W: value at 1 of the one-parameter group. *)
Definition matrix_exp3 (W : M3) (M : M3) : Prop := exists E, is_exp_curve3 W E /\ M = E 1.
Definition matrix_exp4 (X : M4) (M : M4) : Prop := exists E, is_exp_curve4 X E /\ M = E 1.

(** Elementary rotations about the coordinate axes. *)
Definition rot_x (a : R) : M3 := mkM3 1 0 0 0 (cos a) (- sin a) 0 (sin a) (cos a).
Definition rot_y (a : R) : M3 := mkM3 (cos a) 0 (sin a) 0 1 0 (- sin a) 0 (cos a).
Definition rot_z (a : R) : M3 := mkM3 (cos a) (- sin a) 0 (sin a) (cos a) 0 0 0 1.

(** Symmetric positive semidefinite 6x6 matrices (covariances). *)
Definition sym6 (S : M6) : Prop := m6tr S = S.
Definition psd6 (S : M6) : Prop := forall v, 0 <= v6dot v (m6app S v).
Definition covariance6 (S : M6) : Prop := sym6 S /\ psd6 S.

(** A orientation-preserving and, up to the relative amount e, length-preserving
    (never lengthening): (1-e)|v|^2 <= |A v|^2 <= |v|^2. *)
Definition near_rotation (e : R) (A : M3) : Prop :=
  0 < m3det A /\ forall v, (1 - e) * v3sqn v <= v3sqn (m3app A v) <= v3sqn v.
