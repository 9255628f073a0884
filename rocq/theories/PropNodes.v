(** Property theorems C24-C26 (nodes, robust weights). *)
Require Import Reals Lra List.
From Verif Require Import Lin LinFacts SO3 SE3 SE3Ops SpecGeom SO3Ops SO3Exp TrigBounds SO3Ln SO3Misc SE3Alg SE3Ln Angle AngleProofs Nodes NodesProofs
  Robust RobustProofs PropSO3 PropSE3.
Import ListNotations.
Local Open Scope R_scope.

(** ** C24 *)
(** no sequence of calls changes the kind (hence the dimension) of a node *)
Theorem C24_kind_kept : forall v ops d, node_run (node_new v) ops = Some d ->
  same_kind v (nst d) = true /\ same_kind v (nax d) = true /\
  nval_dim (nst d) = nval_dim v /\ nval_dim (nax d) = nval_dim v.
Proof.
  intros v ops d H. destruct (node_run_kind ops (node_new v) d v (kind_init v) (kind_init v) H) as [A B].
  rewrite <- (kind_dim _ _ A), <- (kind_dim _ _ B). auto.
Qed.
Print Assumptions C24_kind_kept.
(** 2D pose: angle in [-pi, pi) after any sequence of calls, except for the
    initial value as long as nothing has written the state (resp. the copy) *)
Theorem C24_pose2d_angle : forall x ops d, node_run (node_new (P2 x)) ops = Some d ->
  exists y b, d = mkN (P2 y) (P2 b) /\
    (- PI <= vz y < PI \/ (y = x /\ forallb (fun o => negb (sets_state o)) ops = true)) /\
    (- PI <= vz b < PI \/ (b = x /\ forallb (fun o => negb (sets_aux o)) ops = true)).
Proof. intros x ops d H. exact (run_pose2d ops x x d H). Qed.
Print Assumptions C24_pose2d_angle.
(** 2D pose: the update adds dx, the angle modulo whole turns *)
Theorem C24_pose2d_update : forall x a dx, exists y k,
  node_update (mkN (P2 x) a) dx = mkN (P2 y) a /\
  vx y = vx x + dx 0%nat /\ vy y = vy x + dx 1%nat /\ vz y = vz x + dx 2%nat + 2 * PI * IZR k /\ - PI <= vz y < PI.
Proof.
  intros x a dx. destruct (wrap_angle_spec (vz x + dx 2%nat)) as [B [k E]].
  exists (wrap3 (v3add x (dx3 dx))), k. repeat split; cbn; auto; tauto.
Qed.
Print Assumptions C24_pose2d_update.
(** plane: the normal is a unit vector (or zero) after any sequence of
    constructor, updates, bookkeeping and restoring ... *)
Theorem C24_plane_unit : forall p ops d, Forall no_set ops -> node_run (node_new (PL p)) ops = Some d ->
  exists q b, d = mkN (PL q) (PL b) /\
    (v3norm (v4h q) = 1 \/ v4h q = v3zero) /\ (v3norm (v4h b) = 1 \/ v4h b = v3zero).
Proof.
  intros p ops d F H.
  destruct (run_plane ops (node_new (PL p)) d (normalize_uz (v4h p)) (normalize_uz (v4h p)) F H) as [A B].
  destruct d as [s a]; cbn in *. destruct s; try (now destruct A). destruct a; try (now destruct B).
  eexists; eexists; split; [reflexivity|]; auto.
Qed.
Print Assumptions C24_plane_unit.
(** ... and each update gives exactly the unit vector along n + dn when that is not zero *)
Theorem C24_plane_update : forall p a dx, v3add (v4h p) (dx3 dx) <> v3zero -> exists q k,
  node_update (mkN (PL p) a) dx = mkN (PL q) a /\ 0 < k /\
  v4h q = v3scal k (v3add (v4h p) (dx3 dx)) /\ v3norm (v4h q) = 1 /\ v4l q = v4l p + dx 3%nat.
Proof.
  intros p a dx H. destruct (normalize_parallel (v3add (v4h p) (dx3 dx))) as (k & K & E).
  exists (plane_normalize (v4add p (dx4 dx))), k. repeat split; auto. apply normalize_unit; auto.
Qed.
Print Assumptions C24_plane_update.
(** set_state does not normalise *)
Theorem C24_plane_set_state_refuted : exists p v d, v3norm (v4h p) = 1 /\
  node_run (node_new (PL p)) [NSetState v] = Some d /\ ~ unit_or_zero (nst d).
Proof.
  exists (mkV4 (mkV3 1 0 0) 0), (PL (mkV4 (mkV3 2 0 0) 0)). eexists. split; [|split; [reflexivity|]].
  - unfold v3norm. cbn [v4h]. replace (v3sqn (mkV3 1 0 0)) with 1 by (lin_unfold; ring). apply sqrt_1.
  - cbn. intros [H|H].
    + apply v3norm_1_sqn in H. revert H. lin_unfold. lra.
    + unfold v3zero in H. injection H. lra.
Qed.
Print Assumptions C24_plane_set_state_refuted.
(** 3D pose: after an update the pose is within 1e-30 of a rigid motion whatever it was before *)
Theorem C24_pose3d_update_rigid : forall T a dx, exists T',
  node_update (mkN (P3 T) a) dx = mkN (P3 T') a /\ near_rigid (/ 10 ^ 30) T'.
Proof. intros. eexists. split; [reflexivity | apply regenerate_near]. Qed.
Print Assumptions C24_pose3d_update_rigid.
(** 3D pose: the update is the left multiplication by exp(dx) wherever regenerate is exact *)
Theorem C24_pose3d_update : forall T a dx, good_pose (m4mul (se3_of_vec (dx6 dx)) T) ->
  node_update (mkN (P3 T) a) dx = mkN (P3 (m4mul (se3_of_vec (dx6 dx)) T)) a.
Proof. intros T a dx H. unfold node_update; cbn [nst nax]. rewrite update_pose3d by exact H. reflexivity. Qed.
Print Assumptions C24_pose3d_update.
(** ... but a zero update turns a half turn about (1,1,0) into the identity rotation *)
Theorem C24_pose3d_update_refuted : exists T dx T', rigid T /\ (forall i, dx i = 0) /\
  node_update (mkN (P3 T) (P3 T)) dx = mkN (P3 T') (P3 T) /\ mR T' = m3id /\ mR T <> m3id.
Proof.
  exists (se3_of_Rt half_turn_xy (mkV3 1 2 3)), dzero. eexists.
  split; [apply rigid_of_Rt, half_turn_xy_rotation|]. split; [reflexivity|]. split; [reflexivity|].
  split; [|apply half_turn_xy_not_id].
  replace (se3_update_lhs (se3_of_Rt half_turn_xy (mkV3 1 2 3)) (dx6 dzero)) with (se3_of_Rt half_turn_xy (mkV3 1 2 3)).
  - rewrite regenerate_half_turn. reflexivity.
  - unfold se3_update_lhs. symmetry. replace (se3_of_vec (dx6 dzero)) with m4id. apply m4mul_id_l.
    rewrite se3_of_vec_block. change (v6w (dx6 dzero)) with v3zero. change (v6v (dx6 dzero)) with v3zero.
    rewrite so3_exp_zero. unfold se3_of_Rt, m4id. f_equal. symmetry. generalize (Vmat v3zero). lin.
Qed.
Print Assumptions C24_pose3d_update_refuted.
(** update, update_from_auxiliary, set_state and restore leave the auxiliary copy alone *)
Theorem C24_auxiliary_kept : forall ops d d', Forall (fun o => sets_aux o = false) ops ->
  node_run d ops = Some d' -> nax d' = nax d.
Proof. exact run_aux_kept. Qed.
Print Assumptions C24_auxiliary_kept.
(** update_from_auxiliary: the new state is the copy plus dx (no regenerate for
    3D poses), whatever the state was; the copy is kept *)
Theorem C24_update_from_auxiliary : forall d dx, nax (node_update_from_auxiliary d dx) = nax d /\
  match nax d with
  | P2 x => exists y k, nst (node_update_from_auxiliary d dx) = P2 y /\ vx y = vx x + dx 0%nat /\ vy y = vy x + dx 1%nat /\
              vz y = vz x + dx 2%nat + 2 * PI * IZR k /\ - PI <= vz y < PI
  | P3 T => nst (node_update_from_auxiliary d dx) = P3 (m4mul (se3_of_vec (dx6 dx)) T)
  | L2 x y => nst (node_update_from_auxiliary d dx) = L2 (x + dx 0%nat) (y + dx 1%nat)
  | L3 p => nst (node_update_from_auxiliary d dx) = L3 (v3add p (mkV3 (dx 0%nat) (dx 1%nat) (dx 2%nat)))
  | PL p => v3add (v4h p) (dx3 dx) <> v3zero -> exists q k, nst (node_update_from_auxiliary d dx) = PL q /\ 0 < k /\
              v4h q = v3scal k (v3add (v4h p) (dx3 dx)) /\ v3norm (v4h q) = 1 /\ v4l q = v4l p + dx 3%nat
  end.
Proof.
  intros d dx. split; [reflexivity|]. unfold node_update_from_auxiliary. destruct d as [s a]. cbn [nax nst]. destruct a; cbn [val_update_aux]; auto.
  - destruct (wrap_angle_spec (vz x + dx 2%nat)) as [B [k E]]. exists (wrap3 (v3add x (dx3 dx))), k. repeat split; cbn; auto; tauto.
  - intros H. destruct (normalize_parallel (v3add (v4h p) (dx3 dx))) as (k & K & E).
    exists (plane_normalize (v4add p (dx4 dx))), k. repeat split; auto. apply normalize_unit; auto.
Qed.
Print Assumptions C24_update_from_auxiliary.
(** consecutive increments of 2D poses and landmarks add up; zero increments do nothing *)
Theorem C24_increments : forall v,
  (forall a b, match v with P3 _ | PL _ => False | _ => True end ->
    val_update (val_update v a) b = val_update v (fun i => a i + b i)) /\
  (match v with P2 x => - PI <= vz x < PI | PL p => v3norm (v4h p) = 1 | P3 T => good_pose T | _ => True end ->
   val_update v (fun _ => 0) = v).
Proof. intros v. split; [intros a b H; apply update_compose; auto | apply update_zero]. Qed.
Print Assumptions C24_increments.
Example C24_example : good_pose pose_ex /\
  node_run (node_new (P2 (mkV3 0 0 4))) [NBookkeep; NRestore] <> None /\
  v3add (mkV3 0 0 1) (dx3 (fun _ => 1)) <> v3zero.
Proof.
  split. { split; [apply pose_ex_rigid|]. exists (PI / 2). split; [apply pose_ex_angle|]. pose proof PI_gt_3.
    split; [right; left; lra | right; apply pose_ex_good]. }
  split; [discriminate|]. unfold v3add, dx3, v3zero; cbn. intros E. injection E; intros; lra.
Qed.

(** ** C25 *)
(** bookkeep, then any calls that only write the state, then restore *)
Theorem C25_bookkeep_restore : forall d ops d', Forall (fun o => sets_aux o = false) ops ->
  node_run d (NBookkeep :: ops ++ [NRestore]) = Some d' ->
  match nst d with
  | P2 x => exists y k, nst d' = P2 y /\ vx y = vx x /\ vy y = vy x /\ vz y = vz x + 2 * PI * IZR k /\
                        (- PI <= vz x < PI -> y = x)
  | v => nst d' = v
  end.
Proof.
  intros d ops d' F H. pose proof (bookkeep_restore d ops d' F H) as E. destruct (nst d); auto. cbn in E.
  destruct (wrap_angle_spec (vz x)) as [_ [k K]]. exists (wrap3 x), k. split; auto. cbn.
  repeat split; auto. apply wrap3_id.
Qed.
Print Assumptions C25_bookkeep_restore.
(** exactly the same state is not restored for a 2D pose built with an angle outside [-pi, pi) *)
Theorem C25_bookkeep_restore_refuted : exists x d',
  node_run (node_new (P2 x)) [NBookkeep; NRestore] = Some d' /\ nst d' <> nst (node_new (P2 x)).
Proof.
  exists (mkV3 0 0 PI). eexists. split; [reflexivity|]. cbn. unfold wrap3; cbn. intros E. injection E as E.
  assert (A : forall z, - PI <= wrap_angle z < PI) by (intros; apply wrap_angle_spec).
  pose proof (A (wrap_angle PI)). lra.
Qed.
Print Assumptions C25_bookkeep_restore_refuted.
Example C25_example : exists d', node_run (node_new (P2 (mkV3 1 2 3)))
   (NBookkeep :: [NUpdate (fun _ => 1); NSetState (P2 (mkV3 7 7 7))] ++ [NRestore]) = Some d' /\
   nst d' = P2 (mkV3 1 2 3).
Proof.
  eexists. split; [reflexivity|]. cbn. pose proof PI_gt_3.
  rewrite !wrap3_id; auto; unfold wrapped; cbn; try lra. rewrite wrap_angle_id; lra.
Qed.

(** ** C26 *)
(** whatever was evaluated before, the weight only depends on the last u, it is
    the derivative of the documented influence function divided by u, in (0,1]
    and non-increasing *)
Theorem C26_robust_weights : forall t us u, t <> RANSAC -> 0 <= u ->
  let w := robust_after t (us ++ [u]) in
  derivable_pt_lim (influence t) u (w * u) /\ 0 < w <= 1 /\
  (t = QUADRATIC -> w = 1) /\ (u <= 1 -> t = HUBER -> w = 1) /\
  (forall us' u', u <= u' -> robust_after t (us' ++ [u']) <= w).
Proof.
  intros t us u H L. cbv zeta. unfold robust_after. rewrite robust_last by auto.
  split; [apply robust_is_influence; auto|]. split; [apply robust_bounds; auto|].
  split; [intros ->; reflexivity|]. split.
  - intros B ->. cbn. destruct (Rltb u 1) eqn:E; auto. apply Rltb_niff in E. assert (u = 1) by lra. subst. field.
  - intros us' u' B. rewrite robust_last by auto. apply robust_mono; auto.
Qed.
Print Assumptions C26_robust_weights.
(** RANSAC: the documented weight 1 below the threshold is never returned *)
Theorem C26_ransac_refuted : exists u, 0 < u < 1 /\
  (forall us, robust_after RANSAC us = 0) /\ derivable_pt_lim (influence RANSAC) u (1 * u).
Proof.
  exists (1 / 2). split; [lra|]. split; [apply ransac_zero|].
  pose proof (robust_is_influence QUADRATIC (1/2) ltac:(discriminate) ltac:(lra)) as D.
  cbn [robust_eval] in D. intros eps He. destruct (D eps He) as [del Hd].
  assert (P : 0 < Rmin del (1/4)) by (apply Rmin_glb_lt; [apply cond_pos | lra]).
  exists (mkposreal _ P). intros h Hh Ha. cbn in Ha.
  assert (A1 : Rabs h < del) by (eapply Rlt_le_trans; [exact Ha | apply Rmin_l]).
  assert (A2 : Rabs h < 1 / 4) by (eapply Rlt_le_trans; [exact Ha | apply Rmin_r]).
  specialize (Hd h Hh A1). unfold influence in *.
  destruct (Rlt_dec (1/2 + h) 1). 2:{ unfold Rabs in A2. destruct (Rcase_abs h); lra. }
  destruct (Rlt_dec (1/2) 1); [|lra]. exact Hd.
Qed.
Print Assumptions C26_ransac_refuted.
Example C26_example : robust_after HUBER [3; 2] = 1 / 2 /\ robust_after CAUCHY [1] = 1 / 2 /\ robust_after MCCLURE [1] = 1 / 4.
Proof.
  unfold robust_after; cbn. unfold Rltb. destruct (Rlt_dec 2 1); [lra|]. destruct (Rlt_dec 1 1); [lra|]. repeat split; lra.
Qed.
