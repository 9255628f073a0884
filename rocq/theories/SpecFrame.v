(** Specifications for C79: one planar session written down in two coordinate
    frames. *)
Require Import Reals List Arith.
From Verif Require Import Lin Nodes Robust Graph Sums Solve SpecSolve Session Factors SpecFactors.
Import ListNotations.
Local Open Scope R_scope.

(** the second frame sees a point p of the first at R(angle) p + (fr_x, fr_y) *)
Record frame : Type := mkFrame { fr_angle : R; fr_x : R; fr_y : R }.
Definition seen_x (g : frame) (x y : R) : R := cos (fr_angle g) * x - sin (fr_angle g) * y + fr_x g.
Definition seen_y (g : frame) (x y : R) : R := sin (fr_angle g) * x + cos (fr_angle g) * y + fr_y g.
(** the same planar pose or landmark, in the first and in the second frame *)
Definition moved (g : frame) (v v' : nval) : Prop :=
  match v, v' with
  | P2 p, P2 p' => vx p' = seen_x g (vx p) (vy p) /\ vy p' = seen_y g (vx p) (vy p) /\ same_heading (vz p') (vz p + fr_angle g)
  | L2 x y, L2 x' y' => x' = seen_x g x y /\ y' = seen_y g x y
  | _, _ => False
  end.
(** an increment (or difference) of a pose or landmark, seen from the second frame *)
Definition turn (g : frame) (d : nat -> R) (k : nat) : R :=
  match k with
  | 0%nat => cos (fr_angle g) * d 0%nat - sin (fr_angle g) * d 1%nat
  | 1%nat => sin (fr_angle g) * d 0%nat + cos (fr_angle g) * d 1%nat
  | _ => d k
  end.
(** the same information about a difference of [n] coordinates *)
Definition turned (n : nat) (g : frame) (W W' : nat -> nat -> R) : Prop :=
  forall u v, quad n W' (turn g u) (turn g v) = quad n W u v.
(** information matrices the solver is meant for *)
Definition proper (n : nat) (W : nat -> nat -> R) : Prop := sym_on n W /\ psd_on n W.

(** the same call in both frames; [solving] says whether solve may be called.
    Relative poses and range/bearing observations are entered as they are. The
    observation of a prior is moved; priors and odometry get turned information
    matrices. Initialising a pose from a relative pose is allowed when the
    axes of the frames are parallel (C79_initialise_refuted). For solving the
    information of a landmark observation must look the same from all sides
    (C79_close_refuted). *)
Definition framed (solving : bool) (g : frame) (c c' : pycall) : Prop :=
  match c, c' with
  | CNode m v, CNode m' v' => m' = m /\ moved g v v'
  | C2Poses2d obs i j W upd, C2Poses2d obs' i' j' W' upd' =>
      obs' = obs /\ i' = i /\ j' = j /\ W' = W /\ upd' = upd /\ (upd = true -> same_heading (fr_angle g) 0) /\ (solving = true -> proper 3 W)
  | COdom2d obs i j W, COdom2d obs' i' j' W' =>
      obs' = obs /\ i' = i /\ j' = j /\ turned 3 g W W' /\ (solving = true -> proper 3 W /\ proper 3 W')
  | CPose2d obs i W, CPose2d obs' i' W' =>
      moved g (P2 obs) (P2 obs') /\ i' = i /\ turned 3 g W W' /\ (solving = true -> proper 3 W /\ proper 3 W')
  | CLandmark2d r b i j W init, CLandmark2d r' b' i' j' W' init' =>
      r' = r /\ b' = b /\ i' = i /\ j' = j /\ W' = W /\ init' = init /\ (solving = true -> proper 2 W /\ turned 2 g W W)
  | CSolve m k la tol, CSolve m' k' la' tol' => solving = true /\ m' = m /\ k' = k /\ la' = la /\ tol' = tol
  | CChi2 e, CChi2 e' => e' = e
  | _, _ => False
  end.

(** square systems with at most one solution, and linear solvers that solve them *)
Definition nonsingular (n : nat) (L : nat -> nat -> R) : Prop :=
  forall x, (forall i, (i < n)%nat -> sumn n (fun j => L i j * x j) = 0) -> forall i, (i < n)%nat -> x i = 0.
Definition exact (lin : linear_solver) : Prop :=
  forall n L b, nonsingular n L -> forall i, (i < n)%nat -> sumn n (fun j => L i j * lin n L b j) = b i.
(** the systems of the Gauss-Newton solves of a session are nonsingular *)
Fixpoint posed (lin : linear_solver) (rob : robust_type) (s : solver) (cs : list pycall) : Prop :=
  match cs with
  | [] => True
  | c :: r =>
      match c with CSolve GN _ _ _ => forall s', build_problem false s = Some s' -> nonsingular (g_stateDim (w_graph (s_w s))) (s_L s') | _ => True end /\
      match pystep lin rob s (pycall_op c) with Some s' => posed lin rob s' r | None => True end
  end.
