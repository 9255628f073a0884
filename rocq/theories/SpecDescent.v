(** Specification notions for the gradient modes of the plane registration. *)
Require Import Reals List Arith.
From Verif Require Import Lin SO3 SE3 Sums SpecGeom Registration SpecRegistration Optimizer Planes SpecPlanes SpecPlaneReg.
Import ListNotations.
Local Open Scope R_scope.

(** points pushed at time t over all planes *)
Definition points_at (t : nat) (h : list (nat * (nat * list plane_op))) : nat := list_sum (map (fun q => length (pushed (snd (snd q)) t)) h).
(** every pose t moved by exp (s * d t) on the left *)
Definition moved (d : nat -> V6) (s : R) (tr : list M4) : list M4 :=
  map (fun q => se3_update_lhs (snd q) (v6scal s (d (fst q)))) (combine (seq 0 (length tr)) tr).
(** g t is the gradient of the total error in the pose t: however the poses are
    moved, the error changes at the rate the sum of the (g t . d t) *)
Definition gradient_at (h : list (nat * (nat * list plane_op))) (tr : list M4) (g : nat -> V6) : Prop :=
  forall d E, (forall s, total_error (moved d s tr) h (E s)) -> derivable_pt_lim E 0 (lsum (seq 0 (length tr)) (fun t => v6dot (g t) (d t))).
(** every plane has one best fit only *)
Definition distinct (h : list (nat * (nat * list plane_op))) (tr : list M4) : Prop :=
  Forall (fun q => sole_least (fun u => cloud_error u tr (used (fst (snd q)) (snd (snd q))))) h.
(** tr' is tr with every pose but the first moved by -c times its gradient *)
Definition descent_step (h : list (nat * (nat * list plane_op))) (c : R) (tr tr' : list M4) : Prop :=
  exists g, (distinct h tr -> gradient_at h tr g) /\ tr' = moved (fun t => if Nat.eqb t 0 then v6zero else g t) (- c) tr.
(** one step with momentum: (tr, v) becomes (tr', v') *)
Definition momentum_step (h : list (nat * (nat * list plane_op))) (a b : R) (n : nat) (x x' : list M4 * V6) : Prop :=
  exists g J T, (distinct h (fst x) -> gradient_at h (fst x) g) /\
  (forall d, v6dot J d = lsum (seq 1 (n - 1)) (fun t => INR t / INR (n - 1) / INR (points_at t h) / INR n * v6dot (g t) d)) /\
  snd x' = v6sub (v6scal b (snd x)) (v6scal a J) /\
  nth_error (fst x) (n - 1) = Some T /\
  nth_error (fst x') (n - 1) = Some (se3_update_lhs T (v6sub (v6scal (b * b) (snd x)) (v6scal ((1 + b) * a) J))) /\
  length (fst x') = n /\ nth_error (fst x') 0 = nth_error (fst x) 0 /\ constant_velocity n (fst x').
(** the errors met during m passes: it goes on while two in a row, the first
    being compared to 1e20, differ by more than 1e-4 *)
Definition stops (E : nat -> R) (m : nat) : Prop :=
  let d i := match i with O => 100000000000000000000 - E 0%nat | S j => E j - E (S j) end in
  (forall i, (S i < m)%nat -> 1 / 10000 < Rabs (d i)) /\ ((m < 100 * 100)%nat -> exists j, m = S j /\ Rabs (d j) <= 1 / 10000).
(** no solve in mode GRADIENT_BENGIOS_NAG since the last set_number_planes_and_poses
    or reset_solution *)
Definition at_rest (ops : list reg_op) : bool :=
  fold_left (fun b o => match o with RSet _ _ | RReset => true | RSolve GRADIENT_BENGIOS_NAG _ => false | _ => b end) ops true.
