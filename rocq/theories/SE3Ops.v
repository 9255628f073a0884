(** Sequences of calls on one SE3 object (SE3.cpp:73-94 operator*, mul, update_lhs,
    update_rhs; 215-224 inv; the caller assigns the result back). *)
Require Import Reals List.
From Verif Require Import Lin SO3 SE3 SpecGeom.
Local Open Scope R_scope.

Inductive se3_op : Type :=
| Se3Mul (B : M4)          (* T = T * B *)
| Se3MulLeft (B : M4)      (* T = B * T *)
| Se3Inv                   (* T = T.inv() *)
| Se3UpdLhs (dxi : V6)     (* T.update_lhs(dxi) *)
| Se3UpdRhs (dxi : V6).    (* T.update_rhs(dxi) *)
Definition se3_step (T : M4) (op : se3_op) : M4 :=
  match op with
  | Se3Mul B => se3_mul T B
  | Se3MulLeft B => se3_mul B T
  | Se3Inv => se3_inv T
  | Se3UpdLhs dxi => se3_update_lhs T dxi
  | Se3UpdRhs dxi => se3_update_rhs T dxi
  end.
Definition se3_run (T : M4) (ops : list se3_op) : M4 := List.fold_left se3_step ops T.

(** Arguments for which the rotation exponential is exact. *)
Definition se3_op_ok (op : se3_op) : Prop :=
  match op with
  | Se3Mul B | Se3MulLeft B => rigid B
  | Se3Inv => True
  | Se3UpdLhs dxi | Se3UpdRhs dxi => v6w dxi = v3zero \/ 1 / 100000 <= v3norm (v6w dxi)
  end.
Definition se3_op_rigid (op : se3_op) : Prop :=
  match op with
  | Se3Mul B | Se3MulLeft B => rigid B
  | _ => True
  end.
(** near_rotation rotation block, exact last row *)
Definition near_rigid (e : R) (T : M4) : Prop :=
  near_rotation e (mR T) /\ mb T = v3zero /\ mc T = 1.
