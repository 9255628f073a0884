(** Sequences of calls on one SO3 object (SO3.cpp:67-88 operator*, mul, update_lhs,
    update_rhs; 242-245 inv; the caller assigns the result back). *)
Require Import Reals List.
From Verif Require Import Lin SO3 SpecGeom.
Local Open Scope R_scope.

Inductive so3_op : Type :=
| So3Mul (B : M3)          (* R = R * B *)
| So3MulLeft (B : M3)      (* R = B * R *)
| So3Inv                   (* R = R.inv() *)
| So3UpdLhs (dw : V3)      (* R.update_lhs(dw) *)
| So3UpdRhs (dw : V3).     (* R.update_rhs(dw) *)
Definition so3_step (A : M3) (op : so3_op) : M3 :=
  match op with
  | So3Mul B => so3_mul A B
  | So3MulLeft B => so3_mul B A
  | So3Inv => so3_inv A
  | So3UpdLhs dw => so3_update_lhs A dw
  | So3UpdRhs dw => so3_update_rhs A dw
  end.
Definition so3_run (A : M3) (ops : list so3_op) : M3 := List.fold_left so3_step ops A.

(** Arguments for which the exponential is exact (outside the Taylor window). *)
Definition so3_op_ok (op : so3_op) : Prop :=
  match op with
  | So3Mul B | So3MulLeft B => rotation B
  | So3Inv => True
  | So3UpdLhs dw | So3UpdRhs dw => dw = v3zero \/ 1 / 100000 <= v3norm dw
  end.

(** Arguments with no restriction on the increments. *)
Definition so3_op_rot (op : so3_op) : Prop :=
  match op with
  | So3Mul B | So3MulLeft B => rotation B
  | _ => True
  end.
