(** Model of PlaneRegistration::print_evaluate
    (/repo/src/PCRegistration/plane_registration.cpp:401-473), bound to Python in
    /repo/mrobpy/PCPlanesPy.cpp:87-89.

    It reads four members that Planes.v leaves out: solveMode_, the matrix
    hessian_ of the Optimizer, the matrix hessian__ and the time profile.  The
    first three are kept beside the registration; the time is an argument.
    [eigs6] is Eigen::SelfAdjointEigenSolver on a matrix of size 6 (external), any
    function.  The matrices allPlanes and allNormals are not used for the result;
    only the range of the rows written matters.  Printing is not modelled.  [None]
    is an exception of estimate_plane, a write outside allPlanes, or a read of
    uninitialised memory. *)
Require Import Reals List Arith Bool.
From Verif Require Import Lin SO3 SE3 Sums Registration Optimizer Planes SpecPlanes SpecPlaneReg.
Import ListNotations.
Local Open Scope R_scope.

(** plane_registration.hpp:191, optimizer.hpp:159, plane_registration.hpp:199;
    [None]: not yet written (plane_registration.cpp:43-44 only sets the size) *)
Record ereg : Type := mkE {
  e_reg : preg; e_mode : solve_mode; e_hess : option (nat -> nat -> R); e_kept : option (nat -> nat -> R) }.
(** plane_registration.cpp:37-45 *)
Definition ereg_new : ereg := mkE preg_new GRADIENT None None.

(** the method of Optimizer that a mode runs, plane_registration.cpp:103-122 *)
Definition optimizer_of (m : solve_mode) : option method :=
  match m with
  | GN_HESSIAN => Some NEWTON_RAPHSON
  | MODE_LM_SPHER => Some LM_SPHER
  | MODE_LM_ELLIP => Some LM_ELLIP
  | _ => None
  end.
(** hessian_ when solve returns: the last matrix of the optimizer, after lines
    63-75 of optimizer.cpp *)
Definition hessian_left (eigs : M4 -> eigen4) inv (m : solve_mode) (r : preg) (old : option (nat -> nat -> R)) : option (nat -> nat -> R) :=
  match optimizer_of m, get_current_error eigs r with
  | Some om, Some (e, r0) =>
      match opt_solve (plane_problem eigs) inv om 100 (1 / 100) (opt_new (with_initial r0 e) (1 / 10000) (1 / 100000)) with
      | Some (o, _) => Some (o_hess o)
      | None => old
      end
  | _, _ => old
  end.
(** lines 422-441 *)
Definition hessian_shown (e : ereg) : option (nat -> nat -> R) :=
  match e_mode e with
  | GRADIENT | GRADIENT_BENGIOS_NAG | GRADIENT_ALL_POSES => Some (fun _ _ => 0)
  | GN_HESSIAN | MODE_LM_SPHER | MODE_LM_ELLIP => e_hess e
  | INITIALIZE | GN_CLAMPED_HESSIAN => e_kept e
  end.
(** lines 405-473 *)
Definition print_evaluate (eigs : M4 -> eigen4) (eigs6 : (nat -> nat -> R) -> nat -> R) (time : R) (e : ereg) : option (list R * ereg) :=
  let r1 := snd (calculate_total_number_points (e_reg e)) in
  match get_current_error eigs r1 with
  | None => None
  | Some (err, r2) =>
      if (length (pr_planes r2) <=? pr_nplanes r2)%nat then
        option_map (fun H => ([INR (pr_nplanes r1); INR (pr_nposes r1); INR (pr_npoints r1); INR (pr_iters r1); time; pr_initial r1; err]
                                ++ map (eigs6 H) (seq 0 6),
                              mkE r2 (e_mode e) (e_hess e) (Some H)))
                   (hessian_shown e)
      else None
  end.

(** ** Programs *)
Inductive eval_op : Type := EOp (o : reg_op) | EEvaluate (time : R).
Definition eval_step (k : kernels) eigs6 (o : eval_op) (e : ereg) : option ereg :=
  match o with
  | EOp o =>
      option_map (fun r' => match o with
                            | RSolve m _ => mkE r' m (hessian_left (k_eigs k) (k_inv k) m (e_reg e) (e_hess e)) (e_kept e)
                            | _ => mkE r' (e_mode e) (e_hess e) (e_kept e)
                            end) (reg_step k o (e_reg e))
  | EEvaluate time => option_map snd (print_evaluate (k_eigs k) eigs6 time e)
  end.
Fixpoint eval_run (k : kernels) eigs6 (ops : list eval_op) (e : ereg) : option ereg :=
  match ops with
  | [] => Some e
  | o :: ops => match eval_step k eigs6 o e with None => None | Some e' => eval_run k eigs6 ops e' end
  end.

(** plane_registration.hpp:146 *)
Definition set_alpha_parameter (a : R) (r : preg) : preg :=
  mkPreg (pr_nplanes r) (pr_nposes r) (pr_npoints r) (pr_planes r) (pr_traj r) (pr_book r) (pr_prev r) a (pr_beta r) (pr_initial r) (pr_iters r).

(** ** What the history says *)
(** an evaluation counts the points and evaluates the error *)
Definition erase (ops : list eval_op) : list reg_op :=
  flat_map (fun o => match o with EOp o => [o] | EEvaluate _ => [RCount; RError] end) ops.
Definition declared (ops : list eval_op) : nat :=
  fold_left (fun n o => match o with EOp (RSet p _) => p | _ => n end) ops 0%nat.
Definition last_mode (ops : list eval_op) : solve_mode :=
  fold_left (fun m o => match o with EOp (RSolve m' _) => m' | _ => m end) ops GRADIENT.
Definition evaluated (ops : list eval_op) : bool :=
  existsb (fun o => match o with EEvaluate _ => true | _ => false end) ops.
(** quadratic form of a matrix of size 6, and its least value on unit vectors:
    the smallest eigenvalue *)
Definition form6 (H : nat -> nat -> R) (u : nat -> R) : R := sumn 6 (fun i => sumn 6 (fun j => u i * H i j * u j)).
Definition unit6 (u : nat -> R) : Prop := sumn 6 (fun i => u i * u i) = 1.
Definition smallest6 (H : nat -> nat -> R) (l : R) : Prop :=
  (exists u, unit6 u /\ form6 H u = l) /\ forall u, unit6 u -> l <= form6 H u.
Definition symmetric6 (H : nat -> nat -> R) : Prop := forall i j, (i < 6)%nat -> (j < 6)%nat -> H i j = H j i.
(** calls other than solve; other than print_evaluate *)
Definition unsolved (o : eval_op) : Prop := match o with EOp (RSolve _ _) => False | _ => True end.
Definition unreported (o : eval_op) : Prop := match o with EEvaluate _ => False | _ => True end.
(** planes handed to add_plane were not cleared *)
Definition eval_ok (o : eval_op) : Prop := match o with EOp o => reg_ok o | EEvaluate _ => True end.
(** the same planes with the same points *)
Definition same_points (r r' : preg) : Prop :=
  map (fun q => (fst q, pl_points (snd q))) (pr_planes r') = map (fun q => (fst q, pl_points (snd q))) (pr_planes r).
