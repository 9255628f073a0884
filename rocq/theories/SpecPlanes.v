(** Specification notions for the plane registration properties. *)
Require Import Reals List Arith.
From Verif Require Import Lin SO3 SE3 Sums SpecGeom Registration SpecRegistration Planes.
Import ListNotations.
Local Open Scope R_scope.

Definition unit4 (v : V4) : Prop := v4dot v v = 1.
(** value of the plane equation v = (n, d) at a point: n . x + d *)
Definition plane_at (v : V4) (x : V3) : R := v3dot (v4h v) x + v4l v.
(** sum of the squares over all points, each moved by the pose it was seen from *)
Definition cloud_error (v : V4) (tr : list M4) (pts : list (list V3)) : R :=
  lsum (combine tr pts) (fun q => lsum (snd q) (fun x => plane_at v (move (fst q) x) * plane_at v (move (fst q) x))).
(** l is the minimum of F over unit 4-vectors *)
Definition least (F : V4 -> R) (l : R) : Prop := (exists v, unit4 v /\ F v = l) /\ forall v, unit4 v -> l <= F v.
(** the matrix of the quadratic form [cloud_error] *)
Definition scatter (tr : list M4) (pts : list (list V3)) : M4 :=
  fold_right m4add m4zero (map (fun q => fold_right m4add m4zero (map (fun x => outer4 (hom (move (fst q) x)) (hom (move (fst q) x))) (snd q))) (combine tr pts)).
(** eigenvalues()(0), eigenvectors().col(0) are a smallest eigenvalue of Q and
    a unit eigenvector for it *)
Definition eigen4_of (Q : M4) (e : eigen4) : Prop :=
  unit4 (e4_vec e) /\ m4app Q (e4_vec e) = v4scal (e4_val e) (e4_vec e) /\
  forall u, e4_val e * v4dot u u <= v4dot u (m4app Q u).
Definition exact4 (eigs : M4 -> eigen4) (Q : M4) : Prop := eigen4_of Q (eigs Q).
(** last row (0 0 0 1) *)
Definition hom4 (T : M4) : Prop := mb T = v3zero /\ mc T = 1.

(** ** Programs on one plane *)
Inductive plane_op : Type :=
| Push (x : V3) (t : nat)
| CalcS (reset : bool)
| Estimate (tr : list M4)
| Incremental (tr : list M4) (t : nat)
| Gradient (t : nat)
| Clear
| Reset.
Definition plane_step (eigs : M4 -> eigen4) (o : plane_op) (p : plane) : option plane :=
  match o with
  | Push x t => push_back_point x t p
  | CalcS b => calculate_all_matrices_S b p
  | Estimate tr => option_map snd (estimate_plane eigs tr p)
  | Incremental tr t => option_map snd (estimate_plane_incrementally eigs tr t p)
  | Gradient t => option_map snd (calculate_gradient t p)
  | Clear => Some (clear_points p)
  | Reset => Some (plane_reset p)
  end.
Fixpoint plane_run (eigs : M4 -> eigen4) (ops : list plane_op) (p : plane) : option plane :=
  match ops with
  | [] => Some p
  | o :: ops => match plane_step eigs o p with None => None | Some p' => plane_run eigs ops p' end
  end.
(** the points pushed at time t, in order *)
Definition pushed (ops : list plane_op) (t : nat) : list V3 :=
  flat_map (fun o => match o with Push x t' => if Nat.eqb t' t then [x] else [] | _ => [] end) ops.
Definition all_pushed (n : nat) (ops : list plane_op) : list (list V3) := map (pushed ops) (seq 0 n).
(** number of pushes with t < n *)
Definition count_pushed (n : nat) (ops : list plane_op) : nat :=
  length (filter (fun o => match o with Push _ t => Nat.ltb t n | _ => false end) ops).
Definition no_clear (ops : list plane_op) : Prop := ~ In Clear ops.
(** the points an estimate after [ops] works with: those present when the
    matrices were last computed, or all points if they have to be computed *)
Fixpoint snapshot (n : nat) (rops : list plane_op) : option (list (list V3)) :=
  match rops with
  | [] => None
  | o :: r =>
      match o with
      | CalcS true => Some (all_pushed n (rev r))
      | CalcS false | Estimate _ => match snapshot n r with Some s => Some s | None => Some (all_pushed n (rev r)) end
      | Reset => None
      | _ => snapshot n r
      end
  end.
Definition used (n : nat) (ops : list plane_op) : list (list V3) :=
  match snapshot n (rev ops) with Some s => s | None => all_pushed n ops end.
Definition is_push (o : plane_op) : Prop := exists x t, o = Push x t.
(** pose t replaced *)
Definition replace_pose (t : nat) (T : M4) (tr : list M4) : list M4 := firstn t tr ++ T :: skipn (S t) tr.
(** the two trajectories agree except at t *)
Definition same_but (t : nat) (tr tr' : list M4) : Prop :=
  length tr = length tr' /\ forall i, i <> t -> nth_error tr i = nth_error tr' i.
(** the smallest eigenvalue l, with unit vector v, is separated from the others *)
Definition separated (F : V4 -> R) (v : V4) (l : R) : Prop :=
  exists gap, 0 < gap /\ forall u, v4dot u v = 0 -> (l + gap) * v4dot u u <= F u.
(** every point of the clouds lies in the plane v when moved by its pose *)
Definition in_plane (v : V4) (tr : list M4) (pts : list (list V3)) : Prop :=
  forall T l x, In (T, l) (combine tr pts) -> In x l -> plane_at v (move T x) = 0.
(** f has second derivative h at 0 *)
Definition second_derivative (f : R -> R) (h : R) : Prop :=
  exists g, (forall s, derivable_pt_lim f s (g s)) /\ derivable_pt_lim g 0 h.
(** one of the points exists *)
Definition some_point (tr : list M4) (pts : list (list V3)) : Prop := exists T l x, In (T, l) (combine tr pts) /\ In x l.
(** a sequence of increments: each trajectory differs from the one before at one
    time only, and no time is used twice *)
Inductive increments : list M4 -> list (list M4 * nat) -> list M4 -> Prop :=
| inc_nil tr : increments tr [] tr
| inc_cons tr tr1 t rest tr2 : same_but t tr tr1 -> increments tr1 rest tr2 -> increments tr ((tr1, t) :: rest) tr2.
