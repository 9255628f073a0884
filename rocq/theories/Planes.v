(** Model of Plane (/repo/src/PCRegistration/plane.cpp, mrob/plane.hpp) and
    PlaneRegistration (/repo/src/PCRegistration/plane_registration.cpp,
    mrob/plane_registration.hpp).

    [None] as a result: an access out of range (undefined behaviour), a read of
    an uninitialised member, or an exception of [at].  The trajectory, a vector
    shared by all planes, is an argument of the methods of Plane that read it; a
    null trajectory pointer is not modelled.  uint_t is nat.  Printing and
    reserve are not modelled. *)
Require Import Reals List Arith Bool.
From Verif Require Import Lin SO3 SE3 Sums Registration Optimizer.
Import ListNotations.
Local Open Scope R_scope.

(** ** Plane *)
(** plane.hpp:129-154.  accumulatedQ_ and planeEstimation_ are uninitialised
    after construction ([None]).  isPlaneEstimated_ is never read. *)
Record plane : Type := mkPlane {
  pl_len : nat;                 (* timeLength_ *)
  pl_est : option V4;           (* planeEstimation_ *)
  pl_lambda : R;                (* lambda_ *)
  pl_points : list (list V3);   (* allPlanePoints_ *)
  pl_number : nat;              (* numberPoints_ *)
  pl_S : list M4;               (* matrixS_ *)
  pl_Q : list M4;               (* matrixQ_ *)
  pl_acc : option M4;           (* accumulatedQ_ *)
  pl_gradQ : list M4 }.         (* gradQ_ *)
(** plane.cpp:36-86 *)
Definition plane_new (timeLength : nat) : plane :=
  mkPlane timeLength None 0 (repeat [] timeLength) 0 [] [] None [].
(** plane.cpp:53-85: lieGenerativeMatrices_ *)
Definition lie_generators : list M4 :=
  [mkM4 (mkM3 0 0 0 0 0 (-1) 0 1 0) (mkV3 0 0 0) (mkV3 0 0 0) 0;
   mkM4 (mkM3 0 0 1 0 0 0 (-1) 0 0) (mkV3 0 0 0) (mkV3 0 0 0) 0;
   mkM4 (mkM3 0 (-1) 0 1 0 0 0 0 0) (mkV3 0 0 0) (mkV3 0 0 0) 0;
   mkM4 (mkM3 0 0 0 0 0 0 0 0 0) (mkV3 1 0 0) (mkV3 0 0 0) 0;
   mkM4 (mkM3 0 0 0 0 0 0 0 0 0) (mkV3 0 1 0) (mkV3 0 0 0) 0;
   mkM4 (mkM3 0 0 0 0 0 0 0 0 0) (mkV3 0 0 1) (mkV3 0 0 0) 0].
(** v[i] = x *)
Fixpoint set_at {A} (i : nat) (x : A) (l : list A) : list A :=
  match l, i with
  | [], _ => []
  | _ :: l, O => x :: l
  | y :: l, S i => y :: set_at i x l
  end.
(** plane.cpp:98-108 *)
Definition push_back_point (point : V3) (t : nat) (p : plane) : option plane :=
  if (t <? pl_len p)%nat then
    match nth_error (pl_points p) t with
    | None => None
    | Some l => Some (mkPlane (pl_len p) (pl_est p) (pl_lambda p) (set_at t (l ++ [point]) (pl_points p)) (S (pl_number p))
                              (pl_S p) (pl_Q p) (pl_acc p) (pl_gradQ p))
    end
  else Some p.
(** plane.cpp:110-115; back() of an empty vector is undefined *)
Definition get_points (t : nat) (p : plane) : option (list V3) :=
  if (pl_len p <=? t)%nat then nth_error (pl_points p) (length (pl_points p) - 1) else nth_error (pl_points p) t.
(** plane.hpp:58-59 *)
Definition get_number_points (t : nat) (p : plane) : option nat := option_map (@length V3) (nth_error (pl_points p) t).
Definition get_total_number_points (p : plane) : nat := pl_number p.
(** plane.cpp:117-120 *)
Definition clear_points (p : plane) : plane :=
  mkPlane (pl_len p) (pl_est p) (pl_lambda p) [] (pl_number p) (pl_S p) (pl_Q p) (pl_acc p) (pl_gradQ p).
(** plane.hpp:51, 84 *)
Definition get_plane (p : plane) : option V4 := pl_est p.
Definition get_error (p : plane) : R := pl_lambda p.

Fixpoint all_some {A} (l : list (option A)) : option (list A) :=
  match l with
  | [] => Some []
  | None :: _ => None
  | Some a :: l => option_map (cons a) (all_some l)
  end.
(** plane.cpp:178-185 *)
Definition hom (p : V3) : V4 := mkV4 p 1.
Definition outer4 (u v : V4) : M4 :=
  mkM4 (m3outer (v4h u) (v4h v)) (v3scal (v4l v) (v4h u)) (v3scal (v4l u) (v4h v)) (v4l u * v4l v).
Definition matrix_S (l : list V3) : M4 := fold_left (fun S p => m4add S (outer4 (hom p) (hom p))) l m4zero.
(** plane.cpp:170-188 *)
Definition calculate_all_matrices_S (reset : bool) (p : plane) : option plane :=
  let S0 := if reset then [] else pl_S p in
  match S0 with
  | [] => match all_some (map (fun t => option_map matrix_S (nth_error (pl_points p) t)) (seq 0 (pl_len p))) with
          | None => None
          | Some S1 => Some (mkPlane (pl_len p) (pl_est p) (pl_lambda p) (pl_points p) (pl_number p) S1 (pl_Q p) (pl_acc p) (pl_gradQ p))
          end
  | _ => Some p
  end.
(** plane.cpp:190-194; [Some None]: 0/0, not a number.  The assert is off. *)
Definition get_mean_point (t : nat) (p : plane) : option (option V3) :=
  option_map (fun St => if Req_EM_T (mc St) 0 then None else Some (v3scal (/ mc St) (mt St))) (nth_error (pl_S p) t).
(** plane.cpp:196-205 *)
Definition conj4 (T S : M4) : M4 := m4mul (m4mul T S) (m4tr T).
Definition calculate_all_matrices_Q (tr : list M4) (p : plane) : option plane :=
  match all_some (map (fun t => match nth_error tr t, nth_error (pl_S p) t with
                                | Some T, Some St => Some (conj4 T St)
                                | _, _ => None
                                end) (seq 0 (pl_len p))) with
  | None => None
  | Some Q => Some (mkPlane (pl_len p) (pl_est p) (pl_lambda p) (pl_points p) (pl_number p) (pl_S p) Q (pl_acc p) (pl_gradQ p))
  end.
(** Eigen::SelfAdjointEigenSolver<Mat4> (external): eigenvalues()(0) and
    eigenvectors().col(0) *)
Record eigen4 : Type := mkEigen4 { e4_val : R; e4_vec : V4 }.
(** plane.cpp:123-145 *)
Definition estimate_plane (eigs : M4 -> eigen4) (tr : list M4) (p : plane) : option (R * plane) :=
  match calculate_all_matrices_S false p with
  | None => None
  | Some p1 =>
      match calculate_all_matrices_Q tr p1 with
      | None => None
      | Some p2 =>
          let acc := fold_left m4add (pl_Q p2) m4zero in
          let e := eigs acc in
          Some (e4_val e, mkPlane (pl_len p2) (Some (e4_vec e)) (e4_val e) (pl_points p2) (pl_number p2) (pl_S p2) (pl_Q p2) (Some acc) (pl_gradQ p2))
      end
  end.
(** plane.cpp:150-151, 160-164: accumulatedQ_ with Q_t replaced *)
Definition replaced_Q (tr : list M4) (t : nat) (p : plane) : option M4 :=
  match pl_acc p, nth_error (pl_Q p) t, nth_error tr t, nth_error (pl_S p) t with
  | Some acc, Some Q, Some T, Some St => Some (m4add (m4sub acc Q) (conj4 T St))
  | _, _, _, _ => None
  end.
(** plane.cpp:148-156; matrixQ_ and lambda_ are not updated *)
Definition estimate_plane_incrementally (eigs : M4 -> eigen4) (tr : list M4) (t : nat) (p : plane) : option (R * plane) :=
  match replaced_Q tr t p with
  | None => None
  | Some acc => Some (e4_val (eigs acc), mkPlane (pl_len p) (Some (e4_vec (eigs acc))) (pl_lambda p) (pl_points p) (pl_number p) (pl_S p) (pl_Q p) (Some acc) (pl_gradQ p))
  end.
(** plane.cpp:158-168 *)
Definition get_error_incremental (eigs : M4 -> eigen4) (tr : list M4) (t : nat) (p : plane) : option R :=
  option_map (fun acc => e4_val (eigs acc)) (replaced_Q tr t p).

(** rows of a 4x4 matrix and the matrix with given rows *)
Definition row0 (A : M4) : V4 := mkV4 (mkV3 (a00 (mR A)) (a01 (mR A)) (a02 (mR A))) (vx (mt A)).
Definition row1 (A : M4) : V4 := mkV4 (mkV3 (a10 (mR A)) (a11 (mR A)) (a12 (mR A))) (vy (mt A)).
Definition row2 (A : M4) : V4 := mkV4 (mkV3 (a20 (mR A)) (a21 (mR A)) (a22 (mR A))) (vz (mt A)).
Definition row3 (A : M4) : V4 := mkV4 (mb A) (mc A).
Definition of_rows (r0 r1 r2 r3 : V4) : M4 :=
  mkM4 (mkM3 (vx (v4h r0)) (vy (v4h r0)) (vz (v4h r0)) (vx (v4h r1)) (vy (v4h r1)) (vz (v4h r1)) (vx (v4h r2)) (vy (v4h r2)) (vz (v4h r2)))
       (mkV3 (v4l r0) (v4l r1) (v4l r2)) (v4h r3) (v4l r3).
Definition v4opp (u : V4) : V4 := mkV4 (v3opp (v4h u)) (- v4l u).
Definition plus_tr (A : M4) : M4 := m4add A (m4tr A).
(** plane.cpp:212-277: the six matrices dQ *)
Definition grad_Q (Q : M4) : list M4 :=
  [plus_tr (of_rows v4zero (v4opp (row2 Q)) (row1 Q) v4zero);
   plus_tr (of_rows (row2 Q) v4zero (v4opp (row0 Q)) v4zero);
   plus_tr (of_rows (v4opp (row1 Q)) (row0 Q) v4zero v4zero);
   plus_tr (of_rows (row3 Q) v4zero v4zero v4zero);
   plus_tr (of_rows v4zero (row3 Q) v4zero v4zero);
   plus_tr (of_rows v4zero v4zero (row3 Q) v4zero)].
(** pi.dot(A * pi) *)
Definition quad4 (A : M4) (v : V4) : R := v4dot v (m4app A v).
Definition v6_of (f : nat -> R) : V6 := mkV6 (mkV3 (f 0%nat) (f 1%nat) (f 2%nat)) (mkV3 (f 3%nat) (f 4%nat) (f 5%nat)).
(** plane.cpp:207-280 *)
Definition calculate_gradient (t : nat) (p : plane) : option (V6 * plane) :=
  match nth_error (pl_Q p) t, pl_est p with
  | Some Q, Some v =>
      let dQ := grad_Q Q in
      Some (v6_of (fun i => quad4 (nth i dQ m4zero) v),
            mkPlane (pl_len p) (pl_est p) (pl_lambda p) (pl_points p) (pl_number p) (pl_S p) (pl_Q p) (pl_acc p) dQ)
  | _, _ => None
  end.
(** plane.cpp:282-304: entries i <= j, zero below; gradQ_ is that of the last
    calculate_gradient.  [None] if there was none. *)
Definition hessian_entry (Q : M4) (dQ : list M4) (v : V4) (i j : nat) : R :=
  let Gi := nth i lie_generators m4zero in
  let Gj := nth j lie_generators m4zero in
  let B := m4add (m4mul (m4add (m4mul Gi Gj) (m4mul Gj Gi)) (m4scal (1 / 2) Q)) (m4mul Gi (nth j dQ m4zero)) in
  quad4 (plus_tr B) v.
Definition calculate_hessian (t : nat) (p : plane) : option (nat -> nat -> R) :=
  match nth_error (pl_Q p) t, pl_est p with
  | Some Q, Some v =>
      if (length (pl_gradQ p) <? 6)%nat then None
      else Some (fun i j => if (i <=? j)%nat && (j <? 6)%nat then hessian_entry Q (pl_gradQ p) v i j else 0)
  | _, _ => None
  end.
(** plane.cpp:316-322 *)
Definition plane_reset (p : plane) : plane :=
  mkPlane (pl_len p) (Some v4zero) (pl_lambda p) (pl_points p) (pl_number p) [] [] (Some m4zero) (pl_gradQ p).

(** ** PlaneRegistration *)
(** plane_registration.hpp:153-186.  planes_ is an unordered_map from ids, kept
    in insertion order (the iteration order only permutes sums of reals and the
    correspondences handed to arun).  add_plane copies: planes shared with the
    caller are modelled in SharedPlanes.v.  Members that are never read, the time profile and
    the copies gradient__ / hessian__ for print_evaluate are left out. *)
Record preg : Type := mkPreg {
  pr_nplanes : nat; pr_nposes : nat; pr_npoints : nat;
  pr_planes : list (nat * plane);
  pr_traj : list M4;            (* *trajectory_ *)
  pr_book : M4;                 (* bookept_trajectory_ *)
  pr_prev : list V6;            (* previousState_ *)
  pr_alpha : R; pr_beta : R;
  pr_initial : R;               (* initial_error_ *)
  pr_iters : nat }.             (* solveIters_ *)
Definition with_planes (r : preg) (l : list (nat * plane)) : preg :=
  mkPreg (pr_nplanes r) (pr_nposes r) (pr_npoints r) l (pr_traj r) (pr_book r) (pr_prev r) (pr_alpha r) (pr_beta r) (pr_initial r) (pr_iters r).
Definition with_traj (r : preg) (tr : list M4) : preg :=
  mkPreg (pr_nplanes r) (pr_nposes r) (pr_npoints r) (pr_planes r) tr (pr_book r) (pr_prev r) (pr_alpha r) (pr_beta r) (pr_initial r) (pr_iters r).
Definition with_book (r : preg) (T : M4) : preg :=
  mkPreg (pr_nplanes r) (pr_nposes r) (pr_npoints r) (pr_planes r) (pr_traj r) T (pr_prev r) (pr_alpha r) (pr_beta r) (pr_initial r) (pr_iters r).
Definition with_prev (r : preg) (l : list V6) : preg :=
  mkPreg (pr_nplanes r) (pr_nposes r) (pr_npoints r) (pr_planes r) (pr_traj r) (pr_book r) l (pr_alpha r) (pr_beta r) (pr_initial r) (pr_iters r).
Definition with_initial (r : preg) (e : R) : preg :=
  mkPreg (pr_nplanes r) (pr_nposes r) (pr_npoints r) (pr_planes r) (pr_traj r) (pr_book r) (pr_prev r) (pr_alpha r) (pr_beta r) e (pr_iters r).
Definition with_iters (r : preg) (n : nat) : preg :=
  mkPreg (pr_nplanes r) (pr_nposes r) (pr_npoints r) (pr_planes r) (pr_traj r) (pr_book r) (pr_prev r) (pr_alpha r) (pr_beta r) (pr_initial r) n.
(** plane_registration.cpp:37-45: eight identity poses, numberPoses_ 0 *)
Definition preg_new : preg := mkPreg 0 0 0 [] (repeat m4id 8) m4id [] (3 / 4) (1 / 10) 0 0.
(** lines 54-67 *)
Definition set_number_planes_and_poses (nplanes nposes : nat) (r : preg) : preg :=
  mkPreg nplanes nposes 0 [] (repeat m4id nposes) (pr_book r) (repeat v6zero nposes) (pr_alpha r) (pr_beta r) (pr_initial r) (pr_iters r).
(** lines 70-77 *)
Definition reset_solution (r : preg) : preg :=
  with_prev (with_traj r (repeat m4id (pr_nposes r))) (repeat v6zero (pr_nposes r)).
(** lines 307-313 *)
Fixpoint estimate_all (eigs : M4 -> eigen4) (tr : list M4) (l : list (nat * plane)) : option (R * list (nat * plane)) :=
  match l with
  | [] => Some (0, [])
  | (i, p) :: l =>
      match estimate_plane eigs tr p, estimate_all eigs tr l with
      | Some (e, p'), Some (s, l') => Some (e + s, (i, p') :: l')
      | _, _ => None
      end
  end.
Definition get_current_error (eigs : M4 -> eigen4) (r : preg) : option (R * preg) :=
  option_map (fun q => (fst q, with_planes r (snd q))) (estimate_all eigs (pr_traj r) (pr_planes r)).
(** lines 319-324, 510-515, 527-532: tau * t * xiFinal, tau = 1 / (numberPoses_ - 1) *)
Definition interpolated (nposes : nat) (xi : V6) (t : nat) : M4 :=
  se3_of_vec (v6scal (1 / INR (nposes - 1) * INR t) xi).
(** poses lo <= t < hi replaced *)
Definition interpolate (nposes : nat) (xi : V6) (lo hi : nat) (tr : list M4) : list M4 :=
  map (fun q => if (lo <=? fst q)%nat && (fst q <? hi)%nat then interpolated nposes xi (fst q) else snd q)
      (combine (seq 0 (length tr)) tr).
(** lines 315-325; [at] throws if there are fewer poses *)
Definition set_last_pose (T : M4) (r : preg) : option preg :=
  if (pr_nposes r <=? 1)%nat then Some r
  else if (pr_nposes r <=? length (pr_traj r))%nat
       then Some (with_traj r (interpolate (pr_nposes r) (se3_ln_vee T) 1 (pr_nposes r) (pr_traj r)))
       else None.
(** unordered_map::emplace: an existing id is kept *)
Definition emplace (i : nat) (p : plane) (l : list (nat * plane)) : list (nat * plane) :=
  if existsb (fun q => Nat.eqb (fst q) i) l then l else l ++ [(i, p)].
(** lines 327-331, 333-338 *)
Definition add_plane (i : nat) (p : plane) (r : preg) : preg := with_planes r (emplace i p (pr_planes r)).
Definition add_new_plane (i : nat) (r : preg) : preg := add_plane i (plane_new (pr_nposes r)) r.
(** lines 340-343; [at] throws for an unknown id *)
Fixpoint push_in (i t : nat) (x : V3) (l : list (nat * plane)) : option (list (nat * plane)) :=
  match l with
  | [] => None
  | (j, p) :: l =>
      if Nat.eqb j i then option_map (fun p' => (j, p') :: l) (push_back_point x t p)
      else option_map (cons (j, p)) (push_in i t x l)
  end.
Definition plane_push_back_point (i t : nat) (x : V3) (r : preg) : option preg :=
  option_map (with_planes r) (push_in i t x (pr_planes r)).
(** lines 345-351 *)
Definition total_points (l : list (nat * plane)) : nat := fold_left (fun n q => (n + get_total_number_points (snd q))%nat) l 0%nat.
Definition calculate_total_number_points (r : preg) : nat * preg :=
  let n := total_points (pr_planes r) in
  (n, mkPreg (pr_nplanes r) (pr_nposes r) n (pr_planes r) (pr_traj r) (pr_book r) (pr_prev r) (pr_alpha r) (pr_beta r) (pr_initial r) (pr_iters r)).
(** lines 370-380 *)
Definition get_point_cloud (t : nat) (r : preg) : option (list V3) :=
  option_map (@concat V3) (all_some (map (fun q => get_points t (snd q)) (pr_planes r))).
(** lines 382-388 *)
Definition get_trajectory (t : nat) (r : preg) : option M4 :=
  if (t <? pr_nposes r)%nat then nth_error (pr_traj r) t else Some m4id.
(** lines 353-367; [at] throws for a ground truth longer than the trajectory.
    With numberPoses_ = 0 only the empty ground truth is modelled (otherwise
    [at] throws or the mean is x/0: [None]). *)
Fixpoint rmse_sum (n : R) (tr gt : list M4) : option R :=
  match gt, tr with
  | [], _ => Some 0
  | _ :: _, [] => None
  | G :: gt, T :: tr =>
      let dxi := se3_ln_vee (m4mul T (se3_inv G)) in
      option_map (fun s => v6dot dxi dxi / n + s) (rmse_sum n tr gt)
  end.
Definition calculate_poses_rmse (gt : list M4) (r : preg) : option R :=
  if (pr_nposes r =? 0)%nat then (match gt with [] => Some 0 | _ :: _ => None end) else option_map sqrt (rmse_sum (INR (pr_nposes r)) (pr_traj r) gt).
(** plane_registration.hpp:110 *)
Definition last_pose (tr : list M4) : option M4 := nth_error tr (length tr - 1).
Definition get_last_pose (r : preg) : option M4 := last_pose (pr_traj r).

(** lines 481-502: one pose; planes in turn *)
Definition sum_hess (A B : nat -> nat -> R) : nat -> nat -> R := fun i j => A i j + B i j.
Fixpoint gh_planes (t : nat) (l : list (nat * plane)) : option (V6 * (nat -> nat -> R) * list (nat * plane)) :=
  match l with
  | [] => Some (v6zero, fun _ _ => 0, [])
  | (i, p) :: l =>
      match calculate_gradient t p with
      | None => None
      | Some (g, p1) =>
          match calculate_hessian t p1, gh_planes t l with
          | Some h, Some (gs, hs, l') => Some (v6add g gs, sum_hess h hs, (i, p1) :: l')
          | _, _ => None
          end
      end
  end.
(** hessian.selfadjointView<Eigen::Upper>() *)
Definition upper_view (H : nat -> nat -> R) : nat -> nat -> R := fun i j => if (i <=? j)%nat then H i j else H j i.
Fixpoint gh_poses (nposes : nat) (ts : list nat) (l : list (nat * plane)) : option (V6 * (nat -> nat -> R) * list (nat * plane)) :=
  match ts with
  | [] => Some (v6zero, fun _ _ => 0, l)
  | t :: ts =>
      match gh_planes t l with
      | None => None
      | Some (g, h, l1) =>
          match gh_poses nposes ts l1 with
          | None => None
          | Some (gs, hs, l2) =>
              let w := 1 / INR (nposes - 1) * INR t in
              Some (v6add (v6scal w g) gs, (fun i j => w * upper_view h i j + hs i j), l2)
          end
      end
  end.
Definition v6_nth (u : V6) (i : nat) : R :=
  nth i [vx (v6w u); vy (v6w u); vz (v6w u); vx (v6v u); vy (v6v u); vz (v6v u)] 0.
Definition pr_gradient_hessian (eigs : M4 -> eigen4) (r : preg) : option (preg * (nat * (nat -> R) * (nat -> nat -> R))) :=
  match get_current_error eigs r with
  | None => None
  | Some (_, r1) =>
      match gh_poses (pr_nposes r) (seq 1 (pr_nposes r - 1)) (pr_planes r1) with
      | None => None
      | Some (g, h, l) => Some (with_planes r1 l, (6%nat, v6_nth g, h))
      end
  end.
(** lines 510-515: numberPoses_ = 0 wraps around and [at] throws *)
Definition interpolate_middle (nposes : nat) (xi : V6) (tr : list M4) : option (list M4) :=
  if (nposes =? 0)%nat then None
  else if (nposes - 1 <=? length tr)%nat || (nposes =? 1)%nat then Some (interpolate nposes xi 1 (nposes - 1) tr)
  else None.
(** back() = T *)
Definition set_back (T : M4) (tr : list M4) : list M4 := set_at (length tr - 1) T tr.
(** lines 504-516 *)
Definition move_last (dx : V6) (r : preg) : option preg :=
  match last_pose (pr_traj r) with
  | None => None
  | Some T =>
      let T' := se3_update_lhs T dx in
      option_map (with_traj r) (interpolate_middle (pr_nposes r) (se3_ln_vee T') (set_back T' (pr_traj r)))
  end.
Definition pr_update_state (dx : nat -> R) (r : preg) : option preg := move_last (v6_of dx) r.
(** lines 518-521; back() of an empty trajectory is undefined: then update_state
    has no result either, before the bookkept pose is read *)
Definition pr_bookkeep_state (r : preg) : preg :=
  match get_last_pose r with None => r | Some T => with_book r T end.
(** lines 523-536.  Where this fails calculate_error and update_state fail
    too, and the Optimizer calls them first; the state is kept then. *)
Definition pr_restore (eigs : M4 -> eigen4) (r : preg) : preg :=
  match interpolate_middle (pr_nposes r) (se3_ln_vee (pr_book r)) (set_back (pr_book r) (pr_traj r)) with
  | None => r
  | Some tr => match get_current_error eigs (with_traj r tr) with
               | None => with_traj r tr
               | Some (_, r1) => r1
               end
  end.
(** lines 475-479 *)
Definition pr_calculate_error (eigs : M4 -> eigen4) (r : preg) : option (preg * option R) :=
  option_map (fun q => (snd q, Some (fst q))) (get_current_error eigs r).
Definition plane_problem (eigs : M4 -> eigen4) : problem preg :=
  mkProblem (pr_calculate_error eigs) (pr_gradient_hessian eigs) pr_update_state pr_bookkeep_state (pr_restore eigs).

(** lines 251-305.  A pair (plane id, mean) is kept for each entry of
    Y_points_all, X and Y; only the means matter.  Means are of poses with at
    least one point; with matrices S computed earlier the division can still be
    0/0 ([None]: not modelled further). *)
Definition mean_at (t : nat) (p : plane) : option V3 :=
  match get_mean_point t p with Some (Some m) => Some m | _ => None end.
Fixpoint init_first (l : list (nat * plane)) : option (list V3 * list (nat * plane)) :=
  match l with
  | [] => Some ([], [])
  | (i, p) :: l =>
      match calculate_all_matrices_S false p with
      | None => None
      | Some p1 =>
          match get_number_points 0 p1, init_first l with
          | Some n, Some (ys, l') =>
              if (n =? 0)%nat then Some (ys, (i, p1) :: l')
              else match mean_at 0 p1 with None => None | Some m => Some (m :: ys, (i, p1) :: l') end
          | _, _ => None
          end
      end
  end.
Fixpoint init_pairs (t : nat) (ys : list V3) (cont : nat) (l : list (nat * plane)) : option (list (V3 * V3)) :=
  match l with
  | [] => Some []
  | (_, p) :: l =>
      match get_number_points t p, init_pairs t ys (S cont) l with
      | Some n, Some rest =>
          if (n =? 0)%nat then Some rest
          else match mean_at t p, nth_error ys cont with
               | Some x, Some y => Some ((x, y) :: rest)
               | _, _ => None
               end
      | _, _ => None
      end
  end.
Fixpoint init_poses (jacobi : M3 -> svd) (ys : list V3) (ts : list nat) (r : preg) : option (nat * preg) :=
  match ts with
  | [] => Some (1%nat, r)
  | t :: ts =>
      match init_pairs t ys 0 (pr_planes r) with
      | None => None
      | Some xy =>
          match arun jacobi (map fst xy) (map snd xy) m4id with
          | None => None
          | Some (O, _) => Some (0%nat, r)
          | Some (S _, T) =>
              if (t <? length (pr_traj r))%nat then init_poses jacobi ys ts (with_traj r (set_at t T (pr_traj r))) else None
          end
      end
  end.
Definition solve_initialize (jacobi : M3 -> svd) (r : preg) : option (nat * preg) :=
  match init_first (pr_planes r) with
  | None => None
  | Some (ys, l) => init_poses jacobi ys (seq 1 (pr_nposes r - 1)) (with_planes r l)
  end.

(** lines 217-226: gradient and number of points of pose t *)
Fixpoint grad_planes (t : nat) (l : list (nat * plane)) : option (V6 * nat * list (nat * plane)) :=
  match l with
  | [] => Some (v6zero, 0%nat, [])
  | (i, p) :: l =>
      match calculate_gradient t p with
      | None => None
      | Some (g, p1) =>
          match get_number_points t p1, grad_planes t l with
          | Some n, Some (gs, ns, l') => Some (v6add g gs, (n + ns)%nat, (i, p1) :: l')
          | _, _ => None
          end
      end
  end.
(** gradients of the poses ts in order, with the number of points of each *)
Fixpoint grad_poses (ts : list nat) (l : list (nat * plane)) : option (list (nat * V6 * nat) * list (nat * plane)) :=
  match ts with
  | [] => Some ([], l)
  | t :: ts =>
      match grad_planes t l with
      | None => None
      | Some (g, n, l1) => option_map (fun q => ((t, g, n) :: fst q, snd q)) (grad_poses ts l1)
      end
  end.
Fixpoint move_poses (k : R) (gs : list (nat * V6 * nat)) (tr : list M4) : option (list M4) :=
  match gs with
  | [] => Some tr
  | (t, g, _) :: gs =>
      match nth_error tr t with
      | None => None
      | Some T => move_poses k gs (set_at t (se3_update_lhs T (v6scal (- k) g)) tr)
      end
  end.
(** lines 206-237: one pass; numberPoints is that of the last pose.  With no
    points there the step is not finite: [None]. *)
Definition all_poses_pass (eigs : M4 -> eigen4) (r : preg) : option (R * preg) :=
  match get_current_error eigs r with
  | None => None
  | Some (e, r1) =>
      match grad_poses (seq 1 (pr_nposes r - 1)) (pr_planes r1) with
      | None => None
      | Some (gs, l) =>
          let n := match rev gs with [] => 1%nat | (_, _, n) :: _ => n end in
          if (n =? 0)%nat then None
          else match move_poses (pr_alpha r / INR n / INR (pr_nposes r)) gs (pr_traj r1) with
               | None => None
               | Some tr => Some (e, with_traj (with_planes r1 l) tr)
               end
      end
  end.
(** lines 138-197: one pass in mode GRADIENT_BENGIOS_NAG.  With no points at
    some pose the step is not finite: [None]. *)
Definition nag_gradient (nposes : nat) (gs : list (nat * V6 * nat)) : V6 :=
  fold_left (fun a q => v6add a (v6scal (1 / INR (nposes - 1) * INR (fst (fst q)) / INR (snd q) / INR nposes) (snd (fst q)))) gs v6zero.
Definition nag_pass (eigs : M4 -> eigen4) (r : preg) : option (R * preg) :=
  match get_current_error eigs r with
  | None => None
  | Some (e, r1) =>
      match grad_poses (seq 1 (pr_nposes r - 1)) (pr_planes r1) with
      | None => None
      | Some (gs, l) =>
          if existsb (fun q => (snd q =? 0)%nat) gs then None
          else match rev (pr_prev r1) with
               | [] => None
               | v :: older =>
                   let J := nag_gradient (pr_nposes r) gs in
                   let a := pr_alpha r in
                   let b := pr_beta r in
                   let dxi := v6sub (v6scal (b * b) v) (v6scal ((1 + b) * a) J) in
                   let v' := v6sub (v6scal b v) (v6scal a J) in
                   option_map (fun r2 => (e, with_prev r2 (rev (v' :: older)))) (move_last dxi (with_planes r1 l))
               end
      end
  end.
(** lines 136-198, 204-238: do ... while (fabs(diffError) > 1e-4 && !singleIteration && iters < 1e4) *)
Fixpoint descend (pass : preg -> option (R * preg)) (single : bool) (fuel iters : nat) (prev : R) (r : preg) : option preg :=
  match fuel with
  | O => Some (with_iters r iters)
  | S fuel =>
      match pass r with
      | None => None
      | Some (e, r1) =>
          if Rltb (1 / 10000) (Rabs (prev - e)) && negb single
          then descend pass single fuel (S iters) e r1
          else Some (with_iters r1 (S iters))
      end
  end.
Definition ten_thousand : nat := (100 * 100)%nat.
Definition error_1e20 : R := 100000000000000000000.

(** plane_registration.hpp:49-56 *)
Inductive solve_mode : Type :=
| INITIALIZE | GRADIENT | GRADIENT_BENGIOS_NAG | GRADIENT_ALL_POSES | GN_HESSIAN | GN_CLAMPED_HESSIAN | MODE_LM_SPHER | MODE_LM_ELLIP.
(** lines 80-127 with Optimizer::solve (optimizer.hpp:63, 72): 100 iterations,
    solutionTolerance_ 1e-4, initial lambda 1e-2 for LM.  [inv] is the inverse of a
    matrix (external), [jacobi] the SVD in arun (external). *)
Definition run_optimizer (eigs : M4 -> eigen4) inv (m : method) (max_iters : nat) (r : preg) : option preg :=
  option_map (fun q => with_iters (o_x (fst q)) (snd q))
             (opt_solve (plane_problem eigs) inv m max_iters (1 / 100) (opt_new r (1 / 10000) (1 / 100000))).
Definition preg_solve (eigs : M4 -> eigen4) inv (jacobi : M3 -> svd) (mode : solve_mode) (single : bool) (r : preg) : option (nat * preg) :=
  match get_current_error eigs r with
  | None => None
  | Some (e, r0) =>
      let r1 := with_initial r0 e in
      let zero := option_map (fun r' => (0%nat, r')) in
      match mode with
      | INITIALIZE => solve_initialize jacobi r1
      | GRADIENT_ALL_POSES => zero (descend (all_poses_pass eigs) false ten_thousand 0 error_1e20 r1)
      | GRADIENT_BENGIOS_NAG => zero (descend (nag_pass eigs) single ten_thousand 0 error_1e20 r1)
      | GN_HESSIAN => zero (run_optimizer eigs inv NEWTON_RAPHSON 100 r1)
      | GN_CLAMPED_HESSIAN => zero (Some r1)
      | MODE_LM_SPHER => zero (run_optimizer eigs inv LM_SPHER 100 r1)
      | MODE_LM_ELLIP => zero (run_optimizer eigs inv LM_ELLIP 100 r1)
      | GRADIENT => zero (Some r1)
      end
  end.
