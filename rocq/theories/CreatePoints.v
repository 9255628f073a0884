(** Model of CreatePoints (/repo/src/PCRegistration/create_points.cpp,
    mrob/create_points.hpp).

    The random engines are external: a record of arbitrary draws.  Doubles are
    reals; the plane index is computed in binary32 as in the code.  uint_t is
    nat.  [None]: an index out of range, or the conversion of a float that has no
    integer value.  Printing and reserve are not modelled. *)
Require Import Reals List Arith ZArith Bool.
From Flocq Require Import Core IEEE754.BinarySingleNaN IEEE754.Binary IEEE754.Bits.
From Verif Require Import Lin SO3 SE3 Planes.
Import ListNotations.
Local Open Scope R_scope.

(** (float)n for an unsigned integer, rounding to nearest even *)
Definition f32 (n : nat) : binary32 := binary_normalize 24 128 eq_refl eq_refl mode_NE (Z.of_nat n) 0 false.
(** create_points.cpp:182: std::floor((float)i * (float)numberPlanes_ / (float)numberPoints_),
    converted to uint_t.  The value is not negative, so floor is truncation. *)
Definition plane_index (i nplanes npoints : nat) : option nat :=
  let q := b32_div mode_NE (b32_mult mode_NE (f32 i) (f32 nplanes)) (f32 npoints) in
  if is_finite 24 128 q then Some (Z.to_nat (Btrunc 24 128 q)) else None.

(** What the random engines return: samplePlanes_ for each plane (lines 57-68,
    142), samplePoses_ for the final pose (154), sampleBias for each time (94-98,
    178) and x_, y_, z_ for each time and point (100-103, 183). *)
Record draws : Type := mkDraws {
  d_plane : nat -> V6; d_final : V6; d_bias : nat -> R * R; d_point : nat -> nat -> V3 }.
(** lines 100-103 *)
Definition sample_point (d : draws) (t i : nat) : V3 :=
  mkV3 (vx (d_point d t i) + fst (d_bias d t)) (vy (d_point d t i) + snd (d_bias d t)) (vz (d_point d t i)).
(** create_points.hpp:114-138 *)
Record scene : Type := mkScene {
  sc_nplanes : nat; sc_nposes : nat; sc_final : M4;
  sc_truth : list M4;               (* goundTruthTrajectory_ *)
  sc_plane_poses : list M4;         (* planePoses_ *)
  sc_X : list (list V3);            (* X_ *)
  sc_ids : list (list nat);         (* pointId_ *)
  sc_planes : list (nat * plane) }. (* planes_ *)

(** lines 165-170; initialPose_ is the identity *)
Definition truth_pose (final : M4) (nposes t : nat) : M4 :=
  let dxi := se3_ln_vee (m4mul final (se3_inv m4id)) in
  let k := if (nposes =? 1)%nat then 0 else INR t / INR (nposes - 1) in
  m4mul (se3_of_vec (v6scal k dxi)) m4id.
(** lines 182-188 *)
Definition make_point (d : draws) (npoints nplanes : nat) (plane_poses : list M4) (T : M4) (t i : nat)
    (st : list V3 * list nat * list (nat * plane)) : option (list V3 * list nat * list (nat * plane)) :=
  let '(xs, ids, planes) := st in
  match plane_index i nplanes npoints with
  | None => None
  | Some k =>
      match nth_error plane_poses k, nth_error planes k with
      | Some P, Some (id, pl) =>
          let point := se3_transform (se3_inv T) (se3_transform P (sample_point d t i)) in
          match push_back_point point t pl with
          | None => None
          | Some pl' => Some (xs ++ [point], ids ++ [k], set_at k (id, pl') planes)
          end
      | _, _ => None
      end
  end.
(** lines 179-189 *)
Fixpoint make_points (d : draws) (npoints nplanes : nat) (plane_poses : list M4) (T : M4) (t : nat) (is : list nat)
    (st : list V3 * list nat * list (nat * plane)) : option (list V3 * list nat * list (nat * plane)) :=
  match is with
  | [] => Some st
  | i :: is =>
      match make_point d npoints nplanes plane_poses T t i st with
      | None => None
      | Some st' => make_points d npoints nplanes plane_poses T t is st'
      end
  end.
(** lines 174-190 *)
Fixpoint make_scans (d : draws) (npoints nplanes : nat) (plane_poses truth : list M4) (ts : list nat)
    (st : list (list V3) * list (list nat) * list (nat * plane)) : option (list (list V3) * list (list nat) * list (nat * plane)) :=
  match ts with
  | [] => Some st
  | t :: ts =>
      let '(X, ids, planes) := st in
      match nth_error truth t with
      | None => None
      | Some T =>
          match make_points d npoints nplanes plane_poses T t (seq 0 npoints) ([], [], planes) with
          | None => None
          | Some (xs, ks, planes') => make_scans d npoints nplanes plane_poses truth ts (X ++ [xs], ids ++ [ks], planes')
          end
      end
  end.
(** lines 105-191 *)
Definition create_points (d : draws) (npoints nplanes nposes : nat) : option scene :=
  let plane_poses := map (fun i => se3_of_vec (d_plane d i)) (seq 0 nplanes) in
  let planes := map (fun i => (i, plane_new nposes)) (seq 0 nplanes) in
  let final := se3_of_vec (d_final d) in
  let truth := map (truth_pose final nposes) (seq 0 nposes) in
  match make_scans d npoints nplanes plane_poses truth (seq 0 nposes) ([], [], planes) with
  | None => None
  | Some (X, ids, planes') => Some (mkScene nplanes nposes final truth plane_poses X ids planes')
  end.
(** lines 198-206; here the registration gets copies; that the planes stay
    shared with the generator is modelled in SharedPlanes.v *)
Definition create_plane_registration (s : scene) (r : preg) : preg :=
  fold_left (fun r q => add_plane (fst q) (plane_reset (snd q)) r) (sc_planes s)
            (set_number_planes_and_poses (sc_nplanes s) (sc_nposes s) r).
(** lines 208-226 and create_points.hpp:105; the asserts are off *)
Definition get_scan (t : nat) (s : scene) : option (list V3) := nth_error (sc_X s) t.
Definition get_point_plane_ids (t : nat) (s : scene) : option (list nat) := nth_error (sc_ids s) t.
Definition get_ground_truth_pose (i : nat) (s : scene) : option M4 :=
  if (i <? sc_nposes s)%nat then nth_error (sc_truth s) i else Some m4id.
Definition get_ground_truth_last_pose (s : scene) : option M4 := nth_error (sc_truth s) (length (sc_truth s) - 1).
