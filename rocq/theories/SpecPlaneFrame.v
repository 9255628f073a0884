(** Specification notions for C94: the same scans in another coordinate frame. *)
Require Import Reals List Arith.
From Verif Require Import Lin SO3 SE3 Sums SpecGeom Registration SpecRegistration Optimizer Planes SpecPlanes SpecPlaneReg.
Import ListNotations.
Local Open Scope R_scope.

(** the pose T when scans and map are both given in the frame moved by G *)
Definition in_frame (G T : M4) : M4 := m4mul (m4mul G T) (se3_inv G).
Definition op_in_frame (G : M4) (o : plane_op) : plane_op := match o with Push x t => Push (move G x) t | _ => o end.
(** the same call with the points and poses in the frame moved by G *)
Definition call_in_frame (G : M4) (o : reg_op) : reg_op :=
  match o with
  | RAdd i n ops => RAdd i n (map (op_in_frame G) ops)
  | RPush i t x => RPush i t (move G x)
  | RLast T => RLast (in_frame G T)
  | _ => o
  end.
Definition shift (v : V3) : M4 := se3_of_Rt m3id v.
(** sum over the planes of the squares of the plane equation u i at the moved points *)
Definition misfit (tr : list M4) (h : list (nat * (nat * list plane_op))) (u : nat -> V4) : R :=
  lsum h (fun q => cloud_error (u (fst q)) tr (used (fst (snd q)) (snd (snd q)))).
