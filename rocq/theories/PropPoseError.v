(** C74: PlaneRegistration::calculate_poses_rmse. *)
Require Import Reals List Arith Lia Lra Psatz Bool.
From Verif Require Import Lin LinFacts SO3 SE3 SpecGeom SO3Ops SO3Exp SO3Ln SE3Ops SE3Alg SE3Exp SE3Ln Sums.
From Verif Require Import Registration SpecRegistration RegistrationMore Optimizer Planes SpecPlanes PlanesProofs PlanesMore.
From Verif Require Import SpecPlaneReg PlaneRegProofs PlaneRegMore PlaneRegInit PlaneRegGrad3 PropSO3 PropSE3 SO3Misc.
Import ListNotations.
Local Open Scope R_scope.

Lemma v6norm_sq v : v6norm v * v6norm v = v6dot v v.
Proof. unfold v6norm. apply sqrt_sqrt. destruct v as [[] []]. lin_unfold. nra. Qed.
Lemma rmse_sum_defined n tr gt : (exists s, rmse_sum n tr gt = Some s) <-> (length gt <= length tr)%nat.
Proof.
  revert tr. induction gt as [|G gt IH]; intros [|T tr]; cbn [rmse_sum length].
  - split; [lia | eauto].
  - split; [lia | eauto].
  - split; [intros [s H]; discriminate | lia].
  - specialize (IH tr). cbv zeta. destruct (rmse_sum n tr gt) as [s|]; cbn [option_map]; split; [intros _; assert (length gt <= length tr)%nat by (apply IH; eauto); lia | eauto | intros [s H]; discriminate | intros H; destruct (proj2 IH ltac:(lia)); discriminate].
Qed.
Lemma rmse_sum_value n tr gt s : n <> 0 -> rmse_sum n tr gt = Some s -> s * n = lsum (combine tr gt) (fun q => se3_distance (fst q) (snd q) * se3_distance (fst q) (snd q)).
Proof.
  intros N. revert tr s. induction gt as [|G gt IH]; intros [|T tr] s H; cbn [rmse_sum] in H; try discriminate.
  - injection H as <-. cbn [combine]. rewrite lsum_nil. ring.
  - injection H as <-. cbn [combine]. rewrite lsum_nil. ring.
  - cbv zeta in H. destruct (rmse_sum n tr gt) as [s0|] eqn:E; [|discriminate]. cbn [option_map] in H. injection H as <-. cbn [combine]. rewrite lsum_cons, <- (IH tr s0 E). cbn [fst snd]. unfold se3_distance. rewrite v6norm_sq. unfold se3_mul. field. auto.
Qed.
Lemma squares_nonneg (l : list (M4 * M4)) : 0 <= lsum l (fun q => se3_distance (fst q) (snd q) * se3_distance (fst q) (snd q)).
Proof. induction l as [|q l IH]; [rewrite lsum_nil; lra|]. rewrite lsum_cons. nra. Qed.
Lemma squares_member (l : list (M4 * M4)) q : In q l -> se3_distance (fst q) (snd q) * se3_distance (fst q) (snd q) <= lsum l (fun q => se3_distance (fst q) (snd q) * se3_distance (fst q) (snd q)).
Proof. induction l as [|q0 l IH]; [intros []|]. rewrite lsum_cons. pose proof (squares_nonneg l). intros [-> | I]; [lra | specialize (IH I); nra]. Qed.
Lemma combine_at {A B} (a : list A) (b : list B) t x y : nth_error a t = Some x -> nth_error b t = Some y -> In (x, y) (combine a b).
Proof. revert a b. induction t as [|t IH]; intros [|? a] [|? b] H1 H2; try discriminate; cbn in *; [left; congruence | right; eapply IH; eauto]. Qed.

(** It throws exactly when the ground truth is longer than the trajectory. *)
Theorem C74_defined : forall k ops r gt, Forall reg_ok ops -> reg_run k ops preg_new = Some r -> (0 < poses_of ops)%nat ->
  (exists e, calculate_poses_rmse gt r = Some e) <-> (length gt <= poses_of ops)%nat.
Proof.
  intros k ops r gt F E N. destruct (after_length k _ r (after_run k ops r F E) N) as [NP LT]. unfold calculate_poses_rmse. rewrite NP. fold (poses_of ops) in *. destruct (Nat.eqb_spec (poses_of ops) 0); [lia|].
  pose proof (rmse_sum_defined (INR (poses_of ops)) (pr_traj r) gt) as D. rewrite LT in D. rewrite <- D. destruct (rmse_sum _ _ gt) as [s|]; cbn [option_map]; split; intros [x H]; eauto; discriminate.
Qed.
Print Assumptions C74_defined.
(** The result is the root of the sum of squared SE3 distances divided by the
    number of poses; so it bounds the distance at every compared pose. *)
Theorem C74_mean_square : forall k ops r gt e, Forall reg_ok ops -> reg_run k ops preg_new = Some r -> (0 < poses_of ops)%nat -> calculate_poses_rmse gt r = Some e ->
  0 <= e /\ e * e * INR (poses_of ops) = lsum (combine (pr_traj r) gt) (fun q => se3_distance (fst q) (snd q) * se3_distance (fst q) (snd q)) /\
  (forall t T G, nth_error (pr_traj r) t = Some T -> nth_error gt t = Some G -> se3_distance T G <= e * sqrt (INR (poses_of ops))).
Proof.
  intros k ops r gt e F E N H. destruct (after_length k _ r (after_run k ops r F E) N) as [NP LT]. unfold calculate_poses_rmse in H. rewrite NP in H. fold (poses_of ops) in *. destruct (Nat.eqb_spec (poses_of ops) 0); [lia|].
  assert (P : 0 < INR (poses_of ops)) by (apply lt_0_INR; lia). destruct (rmse_sum _ _ gt) as [s|] eqn:ES; [|discriminate]. cbn [option_map] in H. injection H as <-.
  apply rmse_sum_value in ES; [|lra]. set (sq := lsum _ _) in *. assert (SQ : 0 <= sq) by apply squares_nonneg. assert (0 <= s) by nra.
  split; [apply sqrt_pos|]. split; [rewrite sqrt_sqrt by auto; exact ES|]. intros t T G ET EG. pose proof (squares_member _ _ (combine_at _ _ _ _ _ ET EG)) as M. fold sq in M. cbn [fst snd] in M.
  rewrite <- sqrt_mult by lra. rewrite ES. rewrite <- (sqrt_square (se3_distance T G)) by (unfold se3_distance, v6norm; apply sqrt_pos). apply sqrt_le_1; nra.
Qed.
Print Assumptions C74_mean_square.
(** A perfect trajectory has error 0; an error of 0 on a full ground truth means
    equal poses, up to half-turns that the logarithm does not see. *)
Theorem C74_zero : forall k ops r gt e, Forall reg_ok ops -> reg_run k ops preg_new = Some r -> (0 < poses_of ops)%nat -> Forall rigid (pr_traj r) -> Forall rigid gt ->
  calculate_poses_rmse gt r = Some e ->
  (gt = pr_traj r -> e = 0) /\
  (e = 0 -> length gt = poses_of ops -> forall t T G, nth_error (pr_traj r) t = Some T -> nth_error gt t = Some G ->
     T = G \/ m3app (m3mul (mR T) (m3tr (mR G))) (mkV3 1 1 0) = mkV3 1 1 0 \/ m3app (m3mul (mR T) (m3tr (mR G))) (mkV3 1 (-1) 0) = mkV3 1 (-1) 0).
Proof.
  intros k ops r gt e F E N RT RG H. destruct (C74_mean_square k ops r gt e F E N H) as (P & V & B). split.
  - intros ->. assert (Z : lsum (combine (pr_traj r) (pr_traj r)) (fun q => se3_distance (fst q) (snd q) * se3_distance (fst q) (snd q)) = 0).
    { clear - RT. induction RT as [|T tr R1 RT IH]; cbn [combine]; [apply lsum_nil|]. rewrite lsum_cons, IH. cbn [fst snd]. rewrite se3_distance_refl by auto. ring. }
    rewrite Z in V. assert (0 < INR (poses_of ops)) by (apply lt_0_INR; lia). assert (e * e = 0) by nra. nra.
  - intros -> _ t T G ET EG. specialize (B t T G ET EG). rewrite Rmult_0_l in B. apply C18_distance_zero.
    + rewrite Forall_forall in RT. apply RT. eapply nth_error_In; eauto.
    + rewrite Forall_forall in RG. apply RG. eapply nth_error_In; eauto.
    + apply Rle_antisym; auto. unfold se3_distance, v6norm. apply sqrt_pos.
Qed.
Print Assumptions C74_zero.
(** Moving the trajectory and the ground truth by the same motion on the right
    leaves it unchanged. *)
Theorem C74_common_motion : forall r gt C, Forall rigid (pr_traj r) -> Forall rigid gt -> rigid C ->
  calculate_poses_rmse (map (fun G => se3_mul G C) gt) (with_traj r (map (fun T => se3_mul T C) (pr_traj r))) = calculate_poses_rmse gt r.
Proof.
  intros r gt C RT RG RC. unfold calculate_poses_rmse. cbn [with_traj pr_nposes pr_traj]. destruct (pr_nposes r =? 0)%nat; [destruct gt; reflexivity|]. apply f_equal. generalize (INR (pr_nposes r)). intros n.
  revert RT. generalize (pr_traj r). induction RG as [|G gt R1 RG IH]; intros tr RT; [destruct tr; reflexivity|]. destruct RT as [|T tr R2 RT]; [reflexivity|]. cbn [map rmse_sum]. cbv zeta. rewrite (IH tr RT).
  assert (Q : m4mul (se3_mul T C) (se3_inv (se3_mul G C)) = m4mul T (se3_inv G)).
  { unfold se3_mul. rewrite (se3_inv_mul G C) by auto. rewrite m4mul_assoc, <- (m4mul_assoc C). rewrite (rigid_rinv C RC). rewrite m4mul_id_l. reflexivity. }
  rewrite Q. reflexivity.
Qed.
Print Assumptions C74_common_motion.
(** A ground truth that stops early is accepted, and the poses after it are not
    looked at: the result can be 0 for a trajectory that misses its end. *)
Definition straight : list reg_op := [RSet 1 2; RNew 0; RLast (se3_of_Rt m3id ahead)].
Lemma straight_run k : exists r, reg_run k straight preg_new = Some r /\ pr_traj r = [m4id; se3_of_Rt m3id ahead].
Proof.
  destruct (enabled_run k straight) as (r & E & _); [repeat (split; [cbn; auto|]); exact I|]. exists r. split; auto. unfold straight in E.
  rewrite (pushes_then_last k 1 2 0 [] _ r (Forall_nil _) ltac:(lia) E). rewrite ln_translation. unfold interpolate. cbn [repeat length seq combine map fst snd Nat.leb Nat.ltb andb].
  unfold interpolated. rewrite !exp_translation. cbn [Nat.sub INR]. apply f_equal2; [reflexivity|]. apply f_equal2; [|reflexivity]; unfold se3_of_Rt, ahead; f_equal; lin_unfold; f_equal; field.
Qed.
Lemma straight_rigid : Forall rigid [m4id; se3_of_Rt m3id ahead].
Proof. constructor; [apply rigid_id|]. constructor; [|constructor]. apply rigid_of_Rt, rotation_id. Qed.
Theorem C74_short_refuted : exists k ops r gt, Forall building ops /\ reg_run k ops preg_new = Some r /\ poses_of ops = 2%nat /\ Forall rigid (pr_traj r) /\ Forall rigid gt /\
  calculate_poses_rmse gt r = Some 0 /\ exists T G e, nth_error (pr_traj r) 1 = Some T /\ rigid G /\ calculate_poses_rmse (gt ++ [G]) r = Some e /\ 0 < e.
Proof.
  set (k := mkKernels (fun _ => mkEigen4 0 v4zero) (fun _ _ _ _ => 0) (fun _ => mkSvd m3id v3zero m3id)). destruct (straight_run k) as (r & E & TR). assert (B : Forall building straight) by (repeat constructor).
  assert (OK : Forall reg_ok straight) by (repeat constructor). assert (PO : poses_of straight = 2%nat) by reflexivity.
  exists k, straight, r, [m4id]. split; [exact B|]. split; [exact E|]. split; [exact PO|]. split; [rewrite TR; apply straight_rigid|]. split; [constructor; [apply rigid_id | constructor]|]. split.
  - destruct (proj2 (C74_defined k straight r [m4id] OK E ltac:(lia)) ltac:(cbn; lia)) as [e H]. destruct (C74_mean_square k straight r _ e OK E ltac:(lia) H) as (P & V & _). rewrite TR in V. cbn [combine] in V.
    rewrite lsum_cons, lsum_nil in V. cbn [fst snd] in V. rewrite se3_distance_refl in V by apply rigid_id. rewrite PO in V. cbn [INR] in V. rewrite H. f_equal. nra.
  - destruct (proj2 (C74_defined k straight r [m4id; m4id] OK E ltac:(lia)) ltac:(cbn; lia)) as [e H]. destruct (C74_mean_square k straight r _ e OK E ltac:(lia) H) as (P & V & D). exists (se3_of_Rt m3id ahead), m4id, e.
    split; [rewrite TR; reflexivity|]. split; [apply rigid_id|]. split; [exact H|]. rewrite TR in D. specialize (D 1%nat _ _ eq_refl eq_refl).
    assert (DI : se3_distance (se3_of_Rt m3id ahead) m4id = 2).
    { unfold se3_distance, se3_mul. replace (se3_inv m4id) with m4id; [|change m4id with (se3_of_Rt m3id v3zero); rewrite inv_of_Rt, m3tr_id, m3app_id; f_equal; lin].
      rewrite m4mul_id_r, ln_translation. unfold v6norm, ahead. replace (v6dot _ _) with (2 * 2) by (lin_unfold; ring). apply sqrt_square. lra. }
    rewrite DI in D. destruct P as [P | <-]; [exact P|]. lra.
Qed.
Print Assumptions C74_short_refuted.
(** Half-turns about (1,1,0) are not seen. *)
Theorem C74_zero_refuted : exists k ops r gt, Forall building ops /\ reg_run k ops preg_new = Some r /\ poses_of ops = 2%nat /\ length gt = 2%nat /\ Forall rigid (pr_traj r) /\ Forall rigid gt /\
  calculate_poses_rmse gt r = Some 0 /\ gt <> pr_traj r.
Proof.
  set (k := mkKernels (fun _ => mkEigen4 0 v4zero) (fun _ _ _ _ => 0) (fun _ => mkSvd m3id v3zero m3id)). destruct (straight_run k) as (r & E & TR). assert (B : Forall building straight) by (repeat constructor).
  assert (OK : Forall reg_ok straight) by (repeat constructor). assert (PO : poses_of straight = 2%nat) by reflexivity. pose proof straight_rigid as SR.
  exists k, straight, r, [se3_of_Rt half_turn_xy v3zero; se3_of_Rt m3id ahead]. split; [exact B|]. split; [exact E|]. split; [exact PO|]. split; [reflexivity|]. split; [rewrite TR; exact SR|].
  split; [constructor; [apply rigid_of_Rt, half_turn_xy_rotation | exact (Forall_inv_tail SR)]|]. split.
  - destruct (proj2 (C74_defined k straight r [se3_of_Rt half_turn_xy v3zero; se3_of_Rt m3id ahead] OK E ltac:(lia)) ltac:(cbn; lia)) as [e H]. destruct (C74_mean_square k straight r _ e OK E ltac:(lia) H) as (P & V & _). rewrite TR in V. cbn [combine] in V.
    rewrite !lsum_cons, lsum_nil in V. cbn [fst snd] in V. rewrite se3_distance_refl in V by exact (Forall_inv (Forall_inv_tail SR)).
    assert (DI : se3_distance m4id (se3_of_Rt half_turn_xy v3zero) = 0).
    { unfold se3_distance, se3_mul. rewrite inv_of_Rt, m4mul_id_l. replace (m3tr half_turn_xy) with half_turn_xy by (unfold half_turn_xy; lin). rewrite (se3_ln_vee_block _ v3zero PI).
      - cbn [mt se3_of_Rt]. rewrite rod_zero, m3app_id. replace (v3opp (m3app half_turn_xy v3zero)) with v3zero by (generalize half_turn_xy; lin). unfold v6norm. replace (v6dot (mkV6 v3zero v3zero) (mkV6 v3zero v3zero)) with 0 by (lin_unfold; ring). apply sqrt_0.
      - cbn [mR se3_of_Rt]. rewrite ln_half_turn_xy. f_equal. unfold hat3; lin. }
    rewrite DI, PO in V. cbn [INR] in V. rewrite H. f_equal. nra.
  - rewrite TR. intros X. injection X. intros. lra.
Qed.
Print Assumptions C74_zero_refuted.
Example C74_ex : forall k, exists r e, Forall reg_ok straight /\ reg_run k straight preg_new = Some r /\ (0 < poses_of straight)%nat /\ Forall rigid (pr_traj r) /\
  calculate_poses_rmse [m4id; se3_of_Rt m3id ahead] r = Some e /\ rigid (se3_of_Rt m3id ahead).
Proof.
  intros k. destruct (straight_run k) as (r & E & TR). assert (OK : Forall reg_ok straight) by (repeat constructor). assert (PO : poses_of straight = 2%nat) by reflexivity. exists r.
  destruct (proj2 (C74_defined k straight r [m4id; se3_of_Rt m3id ahead] OK E ltac:(lia)) ltac:(cbn; lia)) as [e H]. exists e. rewrite TR. pose proof straight_rigid as SR. repeat split; auto; try lia; apply (Forall_inv (Forall_inv_tail SR)).
Qed.
