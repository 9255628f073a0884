(** Specifications for the factor classes, independent of their formulas. *)
Require Import Reals List Arith.
From Verif Require Import Lin SpecGeom Nodes Robust Graph Sums Solve Session Factors.
Import ListNotations.
Local Open Scope R_scope.

(** the 4x4 matrix of a twist (w, v): [w]x and v *)
Definition twist (xi : V6) : M4 :=
  let w := v6w xi in
  mkM4 (mkM3 0 (- vz w) (vy w)  (vz w) 0 (- vx w)  (- vy w) (vx w) 0) (v6v xi) v3zero 0.
(** affine maps whose linear part never lengthens a vector: all rigid motions,
    and what the truncated exponential of the code yields for small increments *)
Definition short (T : M4) : Prop :=
  (forall v, v3sqn (m3app (mR T) v) <= v3sqn v) /\ mb T = v3zero /\ mc T = 1.
Definition v4_derivative (F : R -> V4) (s : R) (D : V4) : Prop :=
  v3_derivative (fun x => v4h (F x)) s (v4h D) /\ derivable_pt_lim (fun x => v4l (F x)) s (v4l D).

(** a curve of node values through v with velocity d: coordinate-wise for 2D
    poses, landmarks and plane parameters; for a 3D pose T' = [d]^ T, the
    velocity of T <- exp(s d) T *)
Definition tangent (c : R -> nval) (v : nval) (d : nat -> R) : Prop :=
  c 0 = v /\
  match v with
  | P2 x => exists f, (forall s, c s = P2 (f s)) /\ v3_derivative f 0 (dx3 d)
  | P3 T => exists F, (forall s, c s = P3 (F s)) /\ (forall s, short (F s)) /\ m4_derivative F 0 (m4mul (twist (dx6 d)) T)
  | L2 _ _ => exists f g, (forall s, c s = L2 (f s) (g s)) /\ derivable_pt_lim f 0 (d 0%nat) /\ derivable_pt_lim g 0 (d 1%nat)
  | L3 p => exists f, (forall s, c s = L3 (f s)) /\ v3_derivative f 0 (dx3 d)
  | PL p => exists f, (forall s, c s = PL (f s)) /\ v4_derivative f 0 (dx4 d)
  end.
Inductive tangents : list (R -> nval) -> list nval -> list (nat -> R) -> Prop :=
| tangents_nil : tangents [] [] []
| tangents_cons c v d cs vs ds : tangent c v d -> tangents cs vs ds -> tangents (c :: cs) (v :: vs) (d :: ds).
(** a row of the Jacobian times the stacked velocities of the neighbours *)
Fixpoint row_dir (row : nat -> R) (off : nat) (vs : list nval) (ds : list (nat -> R)) : R :=
  match vs, ds with
  | v :: vs, d :: ds => sumn (nval_dim v) (fun k => row (off + k)%nat * d k) + row_dir row (off + nval_dim v) vs ds
  | _, _ => 0
  end.
(** the Jacobian of the class is the derivative of its residual, in every
    direction and along every curve *)
Definition jacobian_at (c : fclass) (vs : list nval) : Prop :=
  forall cs ds, tangents cs vs ds -> forall i, (i < fc_dim c)%nat ->
  derivable_pt_lim (fun s => fc_res c (map (fun f => f s) cs) i) 0 (row_dir (fc_jac c vs i) 0 vs ds).
(** the residual of the class vanishes *)
Definition zero_residual (c : fclass) (vs : list nval) : Prop := forall i, (i < fc_dim c)%nat -> fc_res c vs i = 0.

(** angles equal up to turns *)
Definition same_heading (a b : R) : Prop := exists k : Z, a = b + 2 * PI * IZR k.
(** planar motions: compose the pose (x, y, theta) with a relative pose *)
Definition compose2 (p q : V3) : V3 :=
  mkV3 (vx p + (cos (vz p) * vx q - sin (vz p) * vy q)) (vy p + (sin (vz p) * vx q + cos (vz p) * vy q)) (vz p + vz q).
Definition same_pose2 (p q : V3) : Prop := vx p = vx q /\ vy p = vy q /\ same_heading (vz p) (vz q).

(** ** Well-typed Python programs: node ids exist, have the kinds the call
    needs, and the two nodes of a factor differ *)
Inductive kind : Type := KP2 | KP3 | KL2 | KL3 | KPL.
Definition kind_of (v : nval) : kind :=
  match v with P2 _ => KP2 | P3 _ => KP3 | L2 _ _ => KL2 | L3 _ => KL3 | PL _ => KPL end.
Definition typed1 (ks : list kind) (c : pycall) : Prop :=
  match c with
  | CNode m _ => m <> SCHUR_MARGI
  | CPose2d _ i _ => nth_error ks i = Some KP2
  | C2Poses2d _ i j _ _ | COdom2d _ i j _ => i <> j /\ nth_error ks i = Some KP2 /\ nth_error ks j = Some KP2
  | CPose3d _ i _ | CPoint2Plane _ _ _ i _ => nth_error ks i = Some KP3
  | C2Poses3d _ i j _ _ => i <> j /\ nth_error ks i = Some KP3 /\ nth_error ks j = Some KP3
  | CLandmark3d _ i j _ _ => nth_error ks i = Some KP3 /\ nth_error ks j = Some KL3
  | CLandmark2d _ _ i j _ _ => nth_error ks i = Some KP2 /\ nth_error ks j = Some KL2
  | CPlane4d _ i j _ => nth_error ks i = Some KP3 /\ nth_error ks j = Some KPL
  | CSolve _ _ _ _ | CChi2 _ => True
  end.
Definition kinds_after (ks : list kind) (c : pycall) : list kind :=
  match c with CNode _ v => ks ++ [kind_of v] | _ => ks end.
Fixpoint typed (ks : list kind) (cs : list pycall) : Prop :=
  match cs with [] => True | c :: r => typed1 ks c /\ typed (kinds_after ks c) r end.

(** ** What one Python call contributes, in terms of node ids *)
(** class, ids of the neighbours and information matrix of the factor a call adds *)
Definition call_factor (c : pycall) : option (fclass * list nat * (nat -> nat -> R)) :=
  match pycall_op c with PyFactor cl ids W => Some (cl, ids, W) | _ => None end.
(** the factor added by the call has zero residual at the states [st] (by node id) *)
Definition residual_zero (c : pycall) (st : nat -> nval) : Prop :=
  match call_factor c with Some (cl, ids, _) => zero_residual cl (map st ids) | None => False end.
(** its Jacobian is the derivative of its residual there *)
Definition jacobian_right (c : pycall) (st : nat -> nval) : Prop :=
  match call_factor c with Some (cl, ids, _) => jacobian_at cl (map st ids) | None => False end.
(** the call gives node [i] the state [v] *)
Definition initialises (c : pycall) (st : nat -> nval) (i : nat) (v : nval) : Prop :=
  match call_factor c with
  | Some (cl, ids, _) => match fc_init cl with
      | Some (p, g) => nth_error ids p = Some i /\ v = g (map st ids)
      | None => False end
  | None => False end.
Definition set_st (st : nat -> nval) (i : nat) (v : nval) : nat -> nval := fun j => if Nat.eqb j i then v else st j.
(** its half squared Mahalanobis residual *)
Definition call_chi2 (st : nat -> nval) (c : pycall) : R :=
  match call_factor c with
  | Some (cl, ids, W) => 1 / 2 * quad (fc_dim cl) W (fc_res cl (map st ids)) (fc_res cl (map st ids))
  | None => 0 end.
(** get_node(i)->get_state() *)
Definition state_of (w : world) (i : nat) : nval :=
  match get_node w i with Some l => nst (n_data (nd w l)) | None => P2 v3zero end.
