(** C73: the gradient and Hessian that plane registration hands to its optimizer. *)
Require Import Reals List Arith Lia Lra Psatz Bool.
From Verif Require Import Lin LinFacts SO3 SE3 SpecGeom SE3Ops SE3Alg SE3Exp Sums SE3Tangent FactorsDer.
From Verif Require Import Registration SpecRegistration ArunProofs RegistrationMore Optimizer Planes SpecPlanes PlanesProofs PlanesEigen PlanesMore.
From Verif Require Import SpecPlaneReg PlaneRegProofs PlaneRegMore PlaneRegSolve PlaneRegInit PlaneRegGrad PlaneRegGrad3 PlaneRegHess.
Import ListNotations.
Local Open Scope R_scope.

Lemma sized_fits n h : sizes n h -> fits n h.
Proof. apply Forall_impl. intros q ->. auto. Qed.
Lemma sway_len n xi s tr : length tr = n -> length (sway n xi s tr) = n.
Proof. intros L. unfold sway. rewrite map_length, combine_length, seq_length. lia. Qed.

(** The evaluation succeeds exactly when every plane is made for the number of
    poses of the trajectory; it returns six numbers. *)
Theorem C73_defined : forall k ops r, Forall reg_ok ops -> reg_run k ops preg_new = Some r -> (2 <= poses_of ops)%nat ->
  ((exists r1 g H, pr_gradient_hessian (k_eigs k) r = Some (r1, (6%nat, g, H))) <-> sizes (poses_of ops) (planes_of ops)) /\
  (forall r1 m g H, pr_gradient_hessian (k_eigs k) r = Some (r1, (m, g, H)) -> m = 6%nat).
Proof.
  intros k ops r F E N. pose proof (after_run k ops r F E) as AF. split; [split|].
  - intros (r1 & g & H & EG). exact (gradient_sizes k _ r r1 _ AF N EG).
  - intros SZ. exact (gradient_defined k _ r AF ltac:(unfold poses_of in N; lia) SZ).
  - intros r1 m g H EG. pose proof (gradient_sizes k _ r r1 _ AF N EG) as SZ. destruct (gradient_defined k _ r AF ltac:(unfold poses_of in N; lia) SZ) as (r2 & g2 & H2 & EG2). congruence.
Qed.
Print Assumptions C73_defined.
(** When each plane has a single best fit, the returned gradient is the
    derivative of get_current_error when pose t is moved by
    exp (s * t / (n - 1) * xi) on the left, in every direction xi. *)
Theorem C73_gradient : forall k ops r r1 g H xi, Forall reg_ok ops -> reg_run k ops preg_new = Some r -> (2 <= poses_of ops)%nat ->
  (forall Q, m4tr Q = Q -> exact4 (k_eigs k) Q) -> Forall (fun q => sole_least (fun u => cloud_error u (pr_traj r) (used (fst (snd q)) (snd (snd q))))) (planes_of ops) ->
  pr_gradient_hessian (k_eigs k) r = Some (r1, (6%nat, g, H)) ->
  derivable_pt_lim (fun s => match get_current_error (k_eigs k) (with_traj r (sway (poses_of ops) xi s (pr_traj r))) with Some (e, _) => e | None => 0 end) 0
    (sumn 6 (fun i => g i * v6_nth xi i)).
Proof.
  intros k ops r r1 g H xi F E N X SL EG. pose proof (after_run k ops r F E) as AF. destruct (after_length k _ r AF ltac:(unfold poses_of in N; lia)) as [NP LT]. destruct (af_tracked _ _ _ AF) as [_ TK].
  pose proof (gradient_sizes k _ r r1 _ AF N EG) as SZ.
  eapply dl_ext; [intros s; apply (error_at (k_eigs k) _ r _ TK); rewrite sway_len by exact LT; apply sized_fits; exact SZ|].
  exact (gradient_swayed (k_eigs k) _ r r1 g H _ TK NP LT N (Forall_inv_tail (af_hom _ _ _ AF)) X SL EG xi).
Qed.
Print Assumptions C73_gradient.
(** With two poses this is the derivative along the optimizer's own update. *)
Theorem C73_two_poses : forall k ops r r1 g H xi, Forall reg_ok ops -> reg_run k ops preg_new = Some r -> poses_of ops = 2%nat ->
  (forall Q, m4tr Q = Q -> exact4 (k_eigs k) Q) -> Forall (fun q => sole_least (fun u => cloud_error u (pr_traj r) (used (fst (snd q)) (snd (snd q))))) (planes_of ops) ->
  pr_gradient_hessian (k_eigs k) r = Some (r1, (6%nat, g, H)) ->
  derivable_pt_lim (fun s => match pr_update_state (fun i => s * v6_nth xi i) r with
                             | Some r' => match get_current_error (k_eigs k) r' with Some (e, _) => e | None => 0 end
                             | None => 0 end) 0
    (sumn 6 (fun i => g i * v6_nth xi i)).
Proof.
  intros k ops r r1 g H xi F E N X SL EG. pose proof (after_run k ops r F E) as AF. destruct (after_length k _ r AF ltac:(unfold poses_of in N; lia)) as [NP LT]. fold (poses_of ops) in NP, LT. rewrite N in NP, LT.
  pose proof (Forall_inv_tail (af_hom _ _ _ AF)) as HM. pose proof (C73_gradient k ops r r1 g H xi F E ltac:(lia) X SL EG) as D. rewrite N in D.
  destruct (nth_error (pr_traj r) 1) as [T|] eqn:ET; [|apply nth_error_None in ET; lia].
  eapply dl_ext; [|exact D]. intros s. cbv beta. rewrite (update_path 2 r T s xi) by (auto; lia). rewrite path_two by auto. reflexivity.
Qed.
Print Assumptions C73_two_poses.
(** With three poses it is not: the reported derivative along an update is 0, the
    actual derivative is 1. *)
Theorem C73_three_poses_refuted : exists k ops r r1 g H xi, (forall Q, m4tr Q = Q -> exact4 (k_eigs k) Q) /\ Forall building ops /\ reg_run k ops preg_new = Some r /\ poses_of ops = 3%nat /\
  Forall (fun q => sole_least (fun u => cloud_error u (pr_traj r) (used (fst (snd q)) (snd (snd q))))) (planes_of ops) /\
  pr_gradient_hessian (k_eigs k) r = Some (r1, (6%nat, g, H)) /\ sumn 6 (fun i => g i * v6_nth xi i) = 0 /\
  derivable_pt_lim (fun s => match pr_update_state (fun i => s * v6_nth xi i) r with
                             | Some r' => match get_current_error (k_eigs k) r' with Some (e, _) => e | None => 0 end
                             | None => 0 end) 0 1.
Proof.
  destruct exact4_all_exists as [f X]. set (k := mkKernels f (fun _ _ _ _ => 0) (fun _ => mkSvd m3id v3zero m3id)). destruct (swing_wrong k X) as (r & r1 & g & H & E & TR & EG & A & B).
  exists k, swing, r, r1, g, H, turn. split; [exact X|]. split; [exact swing_building|]. split; [exact E|]. split; [unfold poses_of; rewrite swing_history; reflexivity|]. split; [|auto].
  unfold planes_of. rewrite swing_history, TR. cbn [snd]. constructor; [|constructor]. pose proof swing_sole as SW. rewrite <- swing_used in SW. exact SW.
Qed.
Print Assumptions C73_three_poses_refuted.
(** With two poses and translations the returned matrix is the second derivative of
    the sum of squares along the update, the planes being held where the
    evaluation found them. *)
Theorem C73_hessian_two_poses : forall k ops r r1 g H d, Forall reg_ok ops -> reg_run k ops preg_new = Some r -> poses_of ops = 2%nat ->
  pr_gradient_hessian (k_eigs k) r = Some (r1, (6%nat, g, H)) ->
  exists vs, map (fun q => get_plane (snd q)) (pr_planes r1) = map Some vs /\
  second_derivative (fun s => match pr_update_state (fun i => s * v6_nth (mkV6 v3zero d) i) r with Some r' => fixed_error vs (pr_traj r') (planes_of ops) | None => 0 end)
    (sumn 6 (fun i => sumn 6 (fun j => v6_nth (mkV6 v3zero d) i * v6_nth (mkV6 v3zero d) j * H i j))).
Proof. intros k ops r r1 g H d F E N EG. exact (hessian_two k _ r r1 g H d (after_run k ops r F E) N EG). Qed.
Print Assumptions C73_hessian_two_poses.
(** With three poses it is not: 6 is reported where the second derivative is 3. *)
Theorem C73_hessian_refuted : exists k ops r r1 g H d vs, (forall Q, m4tr Q = Q -> exact4 (k_eigs k) Q) /\ Forall building ops /\ reg_run k ops preg_new = Some r /\ poses_of ops = 3%nat /\
  pr_gradient_hessian (k_eigs k) r = Some (r1, (6%nat, g, H)) /\ map (fun q => get_plane (snd q)) (pr_planes r1) = map Some vs /\
  sumn 6 (fun i => sumn 6 (fun j => v6_nth (mkV6 v3zero d) i * v6_nth (mkV6 v3zero d) j * H i j)) = 6 /\
  second_derivative (fun s => match pr_update_state (fun i => s * v6_nth (mkV6 v3zero d) i) r with Some r' => fixed_error vs (pr_traj r') (planes_of ops) | None => 0 end) 3.
Proof.
  destruct exact4_all_exists as [f X]. set (k := mkKernels f (fun _ _ _ _ => 0) (fun _ => mkSvd m3id v3zero m3id)). destruct (rise_wrong k X) as (r & r1 & g & H & v & E & EG & A & B & C).
  exists k, rise, r, r1, g, H, (mkV3 0 0 1), [v]. split; [exact X|]. split; [exact rise_building|]. split; [exact E|]. split; [unfold poses_of; rewrite rise_history; reflexivity|]. auto.
Qed.
Print Assumptions C73_hessian_refuted.

(** two poses one metre apart, a plane seen from both *)
Definition duo : list reg_op := [RSet 1 2; RNew 0] ++ map (RPush 0 0) scan0 ++ map (RPush 0 1) scan1 ++ [RLast (se3_of_Rt m3id (mkV3 1 0 0))].
Lemma duo_history : history duo = (2%nat, [(0%nat, (2%nat, map (fun x => Push x 0) scan0 ++ map (fun x => Push x 1) scan1))]). Proof. reflexivity. Qed.
Lemma duo_used : used 2 (map (fun x => Push x 0) scan0 ++ map (fun x => Push x 1) scan1) = [scan0; scan1]. Proof. reflexivity. Qed.
Lemma duo_run k : exists r, reg_run k duo preg_new = Some r /\ pr_traj r = [m4id; se3_of_Rt m3id (mkV3 1 0 0)].
Proof.
  destruct (enabled_run k duo) as (r & E & _); [repeat (split; [cbn; auto|]); exact I|]. exists r. split; auto.
  assert (F : Forall (fun o => exists i t x, o = RPush i t x) (map (RPush 0 0) scan0 ++ map (RPush 0 1) scan1)) by (repeat constructor; eauto).
  unfold duo in E. rewrite (app_assoc (map (RPush 0 0) scan0)) in E. rewrite (pushes_then_last k 1 2 0 _ _ r F ltac:(lia) E). rewrite ln_translation. unfold interpolate. cbn [repeat length seq combine map fst snd Nat.leb Nat.ltb andb].
  unfold interpolated. rewrite !exp_translation. cbn [Nat.sub INR]. apply f_equal2; [reflexivity|]. apply f_equal2; [|reflexivity]; unfold se3_of_Rt; f_equal; lin_unfold; f_equal; field.
Qed.
Lemma duo_sole : sole_least (fun u => cloud_error u [m4id; se3_of_Rt m3id (mkV3 1 0 0)] [scan0; scan1]).
Proof.
  destruct swing_sole as (v & l & U & V & M & SP). exists v, l.
  assert (EQ : forall u, cloud_error u [m4id; se3_of_Rt m3id (mkV3 1 0 0)] [scan0; scan1] = cloud_error u swing_traj [scan0; scan1; []]).
  { intros u. rewrite swing_cloud. destruct u as [[x y z] w]. unfold cloud_error, scan0, scan1, plane_at, move, se3_of_Rt, lsum. cbn [combine fold_right map fst snd]. lin_unfold. field. }
  split; [exact U|]. split; [rewrite EQ; exact V|]. split; [intros u Hu; rewrite EQ; auto|]. destruct SP as (gap & G & SP). exists gap. split; [exact G|]. intros u Hu. rewrite EQ. apply SP. exact Hu.
Qed.
Example C73_ex : forall k, exists r r1 g H, Forall reg_ok duo /\ reg_run k duo preg_new = Some r /\ poses_of duo = 2%nat /\ sizes (poses_of duo) (planes_of duo) /\
  Forall (fun q => sole_least (fun u => cloud_error u (pr_traj r) (used (fst (snd q)) (snd (snd q))))) (planes_of duo) /\
  pr_gradient_hessian (k_eigs k) r = Some (r1, (6%nat, g, H)).
Proof.
  intros k. destruct (duo_run k) as (r & E & TR). assert (OK : Forall reg_ok duo) by (repeat constructor).
  assert (SZ : sizes (poses_of duo) (planes_of duo)) by (unfold poses_of, planes_of; rewrite duo_history; repeat constructor).
  destruct (gradient_defined k _ r (after_run k duo r OK E) ltac:(rewrite duo_history; cbn; lia) SZ) as (r1 & g & H & EG). exists r, r1, g, H. split; [exact OK|]. split; [exact E|].
  split; [unfold poses_of; rewrite duo_history; reflexivity|]. split; [exact SZ|]. split; [|exact EG].
  unfold planes_of. rewrite duo_history, TR. cbn [snd]. constructor; [|constructor]. pose proof duo_sole as SW. rewrite <- duo_used in SW. exact SW.
Qed.
