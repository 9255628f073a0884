(** Programs on a PlaneRegistration and what their history says about it. *)
Require Import Reals List Arith.
From Verif Require Import Lin SO3 SE3 Sums SpecGeom Registration SpecRegistration Optimizer Planes SpecPlanes.
Import ListNotations.
Local Open Scope R_scope.

Inductive reg_op : Type :=
| RSet (planes poses : nat)                    (* set_number_planes_and_poses *)
| RNew (i : nat)                               (* add_new_plane *)
| RAdd (i n : nat) (ops : list plane_op)       (* add_plane with a Plane(n) after ops *)
| RPush (i t : nat) (x : V3)                   (* plane_push_back_point *)
| RError                                       (* get_current_error *)
| RCount                                       (* calculate_total_number_points *)
| RReset                                       (* reset_solution *)
| RLast (T : M4)                               (* set_last_pose *)
| RSolve (mode : solve_mode) (single : bool).  (* solve *)
(** the external numerical routines *)
Record kernels : Type := mkKernels {
  k_eigs : M4 -> eigen4; k_inv : nat -> (nat -> nat -> R) -> nat -> nat -> R; k_svd : M3 -> svd }.
Definition reg_step (k : kernels) (o : reg_op) (r : preg) : option preg :=
  match o with
  | RSet a b => Some (set_number_planes_and_poses a b r)
  | RNew i => Some (add_new_plane i r)
  | RAdd i n ops => option_map (fun p => add_plane i p r) (plane_run (k_eigs k) ops (plane_new n))
  | RPush i t x => plane_push_back_point i t x r
  | RError => option_map snd (get_current_error (k_eigs k) r)
  | RCount => Some (snd (calculate_total_number_points r))
  | RReset => Some (reset_solution r)
  | RLast T => set_last_pose T r
  | RSolve m s => option_map snd (preg_solve (k_eigs k) (k_inv k) (k_svd k) m s r)
  end.
Fixpoint reg_run (k : kernels) (ops : list reg_op) (r : preg) : option preg :=
  match ops with
  | [] => Some r
  | o :: ops => match reg_step k o r with None => None | Some r' => reg_run k ops r' end
  end.

(** ** History *)
(** For each plane known, in the order of registration: its id, the number of
    times it was made for, and its own history: pushes and evaluations (the
    trajectory of an evaluation does not matter for the points). *)
Definition known (i : nat) (h : list (nat * (nat * list plane_op))) : bool := existsb (fun q => Nat.eqb (fst q) i) h.
Definition register (i n : nat) (ops : list plane_op) (h : list (nat * (nat * list plane_op))) :=
  if known i h then h else h ++ [(i, (n, ops))].
Definition extend (sel : nat -> bool) (o : plane_op) (h : list (nat * (nat * list plane_op))) :=
  map (fun q => if sel (fst q) then (fst q, (fst (snd q), snd (snd q) ++ [o])) else q) h.
Definition note (h : nat * list (nat * (nat * list plane_op))) (o : reg_op) : nat * list (nat * (nat * list plane_op)) :=
  match o with
  | RSet _ n => (n, [])
  | RNew i => (fst h, register i (fst h) [] (snd h))
  | RAdd i n ops => (fst h, register i n ops (snd h))
  | RPush i t x => (fst h, extend (Nat.eqb i) (Push x t) (snd h))
  | RError | RSolve _ _ => (fst h, extend (fun _ => true) (Estimate []) (snd h))
  | RCount | RReset | RLast _ => h
  end.
Definition history (ops : list reg_op) : nat * list (nat * (nat * list plane_op)) := fold_left note ops (0%nat, []).
Definition poses_of (ops : list reg_op) : nat := fst (history ops).
Definition planes_of (ops : list reg_op) : list (nat * (nat * list plane_op)) := snd (history ops).
(** planes handed to add_plane were not cleared *)
Definition reg_ok (o : reg_op) : Prop := match o with RAdd _ _ ops => no_clear ops | _ => True end.
(** planes handed to add_plane fit the trajectory *)
Definition fits (n : nat) (h : list (nat * (nat * list plane_op))) : Prop := Forall (fun q => (fst (snd q) <= n)%nat) h.

(** e is the sum over the planes of the least sum of squares of the plane
    equation over the points in use *)
Inductive total_error (tr : list M4) : list (nat * (nat * list plane_op)) -> R -> Prop :=
| te_nil : total_error tr [] 0
| te_cons i n ops h e s : least (fun u => cloud_error u tr (used n ops)) e -> total_error tr h s ->
    total_error tr ((i, (n, ops)) :: h) (e + s).

(** ** Trajectories *)
(** every pose between the first and the last lies on the constant-velocity
    path from the identity to the last one, at equal time steps *)
Definition constant_velocity (n : nat) (tr : list M4) : Prop :=
  exists T, nth_error tr (n - 1) = Some T /\
  forall t, (0 < t)%nat -> (t < n - 1)%nat -> nth_error tr t = Some (se3_of_vec (v6scal (INR t / INR (n - 1)) (se3_ln_vee T))).
(** ops that leave the path, or may do so *)
Definition on_path (o : reg_op) : Prop :=
  match o with
  | RSolve INITIALIZE _ | RSolve GRADIENT_ALL_POSES _ => False
  | RLast T => se3_ln_vee (se3_of_vec (se3_ln_vee T)) = se3_ln_vee T
  | _ => True
  end.

(** ** Initialization *)
(** a plane with a point at time t, and the mean of its points then *)
Definition seen (t : nat) (q : nat * (nat * list plane_op)) : bool := negb (Nat.eqb (length (pushed (snd (snd q)) t)) 0).
Definition centre (t : nat) (q : nat * (nat * list plane_op)) : V3 := mean (pushed (snd (snd q)) t).
(** means at time t, and at time 0, of the planes seen at time t *)
Definition centres_at (t : nat) (h : list (nat * (nat * list plane_op))) : list V3 := map (centre t) (filter (seen t) h).
Definition centres_first (t : nat) (h : list (nat * (nat * list plane_op))) : list V3 := map (centre 0) (filter (seen t) h).
(** every plane is made for n poses; no point was pushed after an evaluation *)
Definition sizes (n : nat) (h : list (nat * (nat * list plane_op))) : Prop := Forall (fun q => fst (snd q) = n) h.
Definition fresh (h : list (nat * (nat * list plane_op))) : Prop := Forall (fun q => used (fst (snd q)) (snd (snd q)) = all_pushed (fst (snd q)) (snd (snd q))) h.

(** ** Programs without exceptions *)
(** what the header says about each call, on the history so far: points go to
    planes that were added, planes fit the number of poses, INITIALIZE needs
    each plane in the first scan *)
Definition enabled (h : nat * list (nat * (nat * list plane_op))) (o : reg_op) : Prop :=
  match o with
  | RSet _ _ | RNew _ | RCount | RReset | RLast _ => True
  | RAdd _ _ ops => Forall is_push ops
  | RPush i _ _ => known i (snd h) = true
  | RError | RSolve GRADIENT _ | RSolve GN_CLAMPED_HESSIAN _ => (0 < fst h)%nat /\ fits (fst h) (snd h)
  | RSolve INITIALIZE _ => (0 < fst h)%nat /\ sizes (fst h) (snd h) /\ fresh (snd h) /\ Forall (fun q => seen 0 q = true) (snd h)
  | RSolve GN_HESSIAN _ | RSolve MODE_LM_SPHER _ | RSolve MODE_LM_ELLIP _ => (0 < fst h)%nat /\ sizes (fst h) (snd h)
  | RSolve GRADIENT_BENGIOS_NAG _ | RSolve GRADIENT_ALL_POSES _ => False
  end.
Fixpoint enabled_all (h : nat * list (nat * (nat * list plane_op))) (ops : list reg_op) : Prop :=
  match ops with
  | [] => True
  | o :: ops => enabled h o /\ enabled_all (note h o) ops
  end.
(** calls that only build the problem *)
Definition building (o : reg_op) : Prop :=
  match o with RAdd _ _ _ | RError | RSolve _ _ => False | _ => True end.

(** ** Derivatives *)
(** the minimum of F over unit vectors is attained at v and -v only, with a gap *)
Definition sole_least (F : V4 -> R) : Prop := exists v l, unit4 v /\ F v = l /\ (forall u, unit4 u -> l <= F u) /\ separated F v l.
(** every pose t moved by exp (s * t / (n - 1) * xi) on the left *)
Definition sway (n : nat) (xi : V6) (s : R) (tr : list M4) : list M4 :=
  map (fun q => se3_update_lhs (snd q) (v6scal (s * (INR (fst q) / INR (n - 1))) xi)) (combine (seq 0 n) tr).
(** sum of squares with each plane held at the given vector *)
Definition fixed_error (vs : list V4) (tr : list M4) (h : list (nat * (nat * list plane_op))) : R :=
  lsum (combine vs h) (fun q => cloud_error (fst q) tr (used (fst (snd (snd q))) (snd (snd (snd q))))).
