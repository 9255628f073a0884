(** Model of several PlaneRegistration objects filled from one CreatePoints
    (/repo/src/PCRegistration/create_points.cpp:198-206, plane.hpp:61,
    plane_registration.cpp:327-331).

    create_plane_registration hands the generator's own planes (shared_ptr) to
    the registration and points their trajectory_ at that registration's
    trajectory.  Planes.v and CreatePoints.v give each registration copies; here
    the planes are kept once.  [sel] maps the trajectory of the registration whose
    method runs to the trajectory its planes point to: the identity for the
    registration filled last, a constant function for the others.  All reads of
    the trajectory through a plane are in estimate_plane; with [sel] the identity
    the definitions below are those of Planes.v (SharedPlanesProofs).
    estimate_plane_incrementally and get_error_incremental are not called by the
    methods here.  [None] is as in Planes.v. *)
Require Import Reals List Arith Bool.
From Verif Require Import Lin SO3 SE3 Sums Registration Optimizer Planes CreatePoints.
Import ListNotations.
Local Open Scope R_scope.

(** ** Methods of a registration whose planes read the trajectory [sel tr] *)
(** plane_registration.cpp:307-313 *)
Definition sh_current_error (sel : list M4 -> list M4) (eigs : M4 -> eigen4) (r : preg) : option (R * preg) :=
  option_map (fun q => (fst q, with_planes r (snd q))) (estimate_all eigs (sel (pr_traj r)) (pr_planes r)).
(** lines 475-479 *)
Definition sh_calculate_error sel (eigs : M4 -> eigen4) (r : preg) : option (preg * option R) :=
  option_map (fun q => (snd q, Some (fst q))) (sh_current_error sel eigs r).
(** lines 481-502 *)
Definition sh_gradient_hessian sel (eigs : M4 -> eigen4) (r : preg) : option (preg * (nat * (nat -> R) * (nat -> nat -> R))) :=
  match sh_current_error sel eigs r with
  | None => None
  | Some (_, r1) =>
      match gh_poses (pr_nposes r) (seq 1 (pr_nposes r - 1)) (pr_planes r1) with
      | None => None
      | Some (g, h, l) => Some (with_planes r1 l, (6%nat, v6_nth g, h))
      end
  end.
(** lines 523-536 *)
Definition sh_restore sel (eigs : M4 -> eigen4) (r : preg) : preg :=
  match interpolate_middle (pr_nposes r) (se3_ln_vee (pr_book r)) (set_back (pr_book r) (pr_traj r)) with
  | None => r
  | Some tr => match sh_current_error sel eigs (with_traj r tr) with
               | None => with_traj r tr
               | Some (_, r1) => r1
               end
  end.
Definition sh_problem sel (eigs : M4 -> eigen4) : problem preg :=
  mkProblem (sh_calculate_error sel eigs) (sh_gradient_hessian sel eigs) pr_update_state pr_bookkeep_state (sh_restore sel eigs).
(** lines 206-237 *)
Definition sh_all_poses_pass sel (eigs : M4 -> eigen4) (r : preg) : option (R * preg) :=
  match sh_current_error sel eigs r with
  | None => None
  | Some (e, r1) =>
      match grad_poses (seq 1 (pr_nposes r - 1)) (pr_planes r1) with
      | None => None
      | Some (gs, l) =>
          let n := match rev gs with [] => 1%nat | (_, _, n) :: _ => n end in
          if (n =? 0)%nat then None
          else match move_poses (pr_alpha r / INR n / INR (pr_nposes r)) gs (pr_traj r1) with
               | None => None
               | Some tr => Some (e, with_traj (with_planes r1 l) tr)
               end
      end
  end.
(** lines 138-197 *)
Definition sh_nag_pass sel (eigs : M4 -> eigen4) (r : preg) : option (R * preg) :=
  match sh_current_error sel eigs r with
  | None => None
  | Some (e, r1) =>
      match grad_poses (seq 1 (pr_nposes r - 1)) (pr_planes r1) with
      | None => None
      | Some (gs, l) =>
          if existsb (fun q => (snd q =? 0)%nat) gs then None
          else match rev (pr_prev r1) with
               | [] => None
               | v :: older =>
                   let J := nag_gradient (pr_nposes r) gs in
                   let a := pr_alpha r in
                   let b := pr_beta r in
                   let dxi := v6sub (v6scal (b * b) v) (v6scal ((1 + b) * a) J) in
                   let v' := v6sub (v6scal b v) (v6scal a J) in
                   option_map (fun r2 => (e, with_prev r2 (rev (v' :: older)))) (move_last dxi (with_planes r1 l))
               end
      end
  end.
(** lines 80-127 *)
Definition sh_run_optimizer sel (eigs : M4 -> eigen4) inv (m : method) (max_iters : nat) (r : preg) : option preg :=
  option_map (fun q => with_iters (o_x (fst q)) (snd q))
             (opt_solve (sh_problem sel eigs) inv m max_iters (1 / 100) (opt_new r (1 / 10000) (1 / 100000))).
Definition sh_solve sel (eigs : M4 -> eigen4) inv (jacobi : M3 -> svd) (mode : solve_mode) (single : bool) (r : preg) : option (nat * preg) :=
  match sh_current_error sel eigs r with
  | None => None
  | Some (e, r0) =>
      let r1 := with_initial r0 e in
      let zero := option_map (fun r' => (0%nat, r')) in
      match mode with
      | INITIALIZE => solve_initialize jacobi r1
      | GRADIENT_ALL_POSES => zero (descend (sh_all_poses_pass sel eigs) false ten_thousand 0 error_1e20 r1)
      | GRADIENT_BENGIOS_NAG => zero (descend (sh_nag_pass sel eigs) single ten_thousand 0 error_1e20 r1)
      | GN_HESSIAN => zero (sh_run_optimizer sel eigs inv NEWTON_RAPHSON 100 r1)
      | GN_CLAMPED_HESSIAN => zero (Some r1)
      | MODE_LM_SPHER => zero (sh_run_optimizer sel eigs inv LM_SPHER 100 r1)
      | MODE_LM_ELLIP => zero (sh_run_optimizer sel eigs inv LM_ELLIP 100 r1)
      | GRADIENT => zero (Some r1)
      end
  end.

(** ** Calls *)
(** The methods that use a filled registration; what they return. *)
Inductive call : Type :=
| CError                                       (* get_current_error *)
| CSolve (mode : solve_mode) (single : bool)   (* solve *)
| CPose (t : nat)                              (* get_trajectory *)
| CLast (T : M4)                               (* set_last_pose *)
| CReset                                       (* reset_solution *)
| CCount                                       (* calculate_total_number_points *)
| CPush (i t : nat) (x : V3).                  (* plane_push_back_point *)
Inductive answer : Type := ANone | AReal (e : R) | ANat (n : nat) | APose (T : M4).
Definition do_call sel (eigs : M4 -> eigen4) inv (jacobi : M3 -> svd) (c : call) (r : preg) : option (answer * preg) :=
  match c with
  | CError => option_map (fun q => (AReal (fst q), snd q)) (sh_current_error sel eigs r)
  | CSolve m s => option_map (fun q => (ANat (fst q), snd q)) (sh_solve sel eigs inv jacobi m s r)
  | CPose t => option_map (fun T => (APose T, r)) (get_trajectory t r)
  | CLast T => option_map (fun r' => (ANone, r')) (set_last_pose T r)
  | CReset => Some (ANone, reset_solution r)
  | CCount => Some (ANat (fst (calculate_total_number_points r)), snd (calculate_total_number_points r))
  | CPush i t x => option_map (fun r' => (ANone, r')) (plane_push_back_point i t x r)
  end.

(** ** One generator, several registrations *)
(** [sh_regs]: the registrations, each with the flag that it was filled; then its
    planes are those of the generator and its own [pr_planes] is not used.
    [sh_owner]: the registration whose trajectory the planes point to. *)
Record shared : Type := mkShared { sh_scene : scene; sh_owner : nat; sh_regs : list (bool * preg) }.
Definition put_planes (s : scene) (l : list (nat * plane)) : scene :=
  mkScene (sc_nplanes s) (sc_nposes s) (sc_final s) (sc_truth s) (sc_plane_poses s) (sc_X s) (sc_ids s) l.
(** create_points.cpp:198-206 and plane_registration.cpp:327-331; the ids of the
    generator's planes are distinct (create_points.cpp:139-148) *)
Definition fill_reg (k : nat) (s : shared) : option shared :=
  match nth_error (sh_regs s) k with
  | None => None
  | Some (_, r) =>
      Some (mkShared (put_planes (sh_scene s) (map (fun q => (fst q, plane_reset (snd q))) (sc_planes (sh_scene s)))) k
                     (set_at k (true, create_plane_registration (sh_scene s) r) (sh_regs s)))
  end.
(** the trajectory the planes of registration k point to *)
Definition points_to (s : shared) (k : nat) (tr : list M4) : list M4 :=
  if Nat.eqb k (sh_owner s) then tr
  else match nth_error (sh_regs s) (sh_owner s) with Some (_, o) => pr_traj o | None => [] end.
(** a call on registration k; one that was not filled has its own planes *)
Definition call_on (eigs : M4 -> eigen4) inv (jacobi : M3 -> svd) (k : nat) (c : call) (s : shared) : option (answer * shared) :=
  match nth_error (sh_regs s) k with
  | None => None
  | Some (false, r) =>
      option_map (fun q => (fst q, mkShared (sh_scene s) (sh_owner s) (set_at k (false, snd q) (sh_regs s))))
                 (do_call (fun tr => tr) eigs inv jacobi c r)
  | Some (true, r) =>
      option_map (fun q => (fst q, mkShared (put_planes (sh_scene s) (pr_planes (snd q))) (sh_owner s) (set_at k (true, snd q) (sh_regs s))))
                 (do_call (points_to s k) eigs inv jacobi c (with_planes r (sc_planes (sh_scene s))))
  end.

(** ** Programs *)
Inductive event : Type := EFill (k : nat) | ECall (k : nat) (c : call).
Definition event_step (eigs : M4 -> eigen4) inv (jacobi : M3 -> svd) (e : event) (s : shared) : option (list (nat * answer) * shared) :=
  match e with
  | EFill k => option_map (fun s' => ([], s')) (fill_reg k s)
  | ECall k c => option_map (fun q => ([(k, fst q)], snd q)) (call_on eigs inv jacobi k c s)
  end.
(** the answers, each with the registration that gave it, and the final state *)
Fixpoint shared_run (eigs : M4 -> eigen4) inv (jacobi : M3 -> svd) (evs : list event) (s : shared) : option (list (nat * answer) * shared) :=
  match evs with
  | [] => Some ([], s)
  | e :: evs =>
      match event_step eigs inv jacobi e s with
      | None => None
      | Some (a, s1) => option_map (fun q => (a ++ fst q, snd q)) (shared_run eigs inv jacobi evs s1)
      end
  end.
(** m new registrations beside the generator *)
Definition shared_start (sc : scene) (m : nat) : shared := mkShared sc 0 (repeat (false, preg_new) m).
(** one registration with planes of its own *)
Fixpoint alone_run (eigs : M4 -> eigen4) inv (jacobi : M3 -> svd) (cs : list call) (r : preg) : option (list answer * preg) :=
  match cs with
  | [] => Some ([], r)
  | c :: cs =>
      match do_call (fun tr => tr) eigs inv jacobi c r with
      | None => None
      | Some (a, r1) => option_map (fun q => (a :: fst q, snd q)) (alone_run eigs inv jacobi cs r1)
      end
  end.
Definition calls_of (k : nat) (evs : list event) : list call :=
  flat_map (fun e => match e with ECall j c => if Nat.eqb j k then [c] else [] | EFill _ => [] end) evs.
Definition answers_of (k : nat) (l : list (nat * answer)) : list answer :=
  flat_map (fun q => if Nat.eqb (fst q) k then [snd q] else []) l.
Definition pushes_none (e : event) : Prop := match e with ECall _ (CPush _ _ _) => False | _ => True end.
Definition fills_none (e : event) : Prop := match e with EFill _ => False | _ => True end.
