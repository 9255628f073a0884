(** Properties C40-C50 and C66: the factor classes, as added by the Python methods.
    [st i] is the state of the node with id i; [residual_zero], [jacobian_right]
    and [initialises] (SpecFactors.v) speak about the factor a call adds. *)
Require Import Reals List Arith Lia Lra Psatz Bool.
From Verif Require Import Lin LinFacts SO3 SE3 Angle AngleProofs SpecGeom TrigBounds SO3Exp SO3Ln SO3Misc SO3Dist SE3Alg SE3Exp SE3Ln.
From Verif Require Import Nodes NodesProofs Robust Graph GraphProofs Sums Solve SpecSolve SolveFrame SolveProofs Session SessionProofs.
From Verif Require Import Factors SpecFactors FactorsDer FactorsPlanar Factors3D Factors3DLn FactorsMore FactorsSession PropSolve.
Import ListNotations.
Local Open Scope R_scope.

Ltac call i j := unfold residual_zero, jacobian_right, initialises, call_factor; cbn [pycall_op];
  destruct (Nat.ltb_spec i j); try lia; cbn [map];
  repeat match goal with H : ?st _ = _ |- context [?st _] => rewrite H end.

Lemma rot_x_rotation a : rotation (rot_x a).
Proof. pose proof (sin2_cos2 a) as Q. unfold Rsqr in Q. split; [unfold orthogonal, rot_x; lin_unfold; apply m3_eq; lra | unfold rot_x; lin_unfold; lra]. Qed.
Lemma rot_y_rotation a : rotation (rot_y a).
Proof. pose proof (sin2_cos2 a) as Q. unfold Rsqr in Q. split; [unfold orthogonal, rot_y; lin_unfold; apply m3_eq; lra | unfold rot_y; lin_unfold; lra]. Qed.
Lemma rot_z_rotation a : rotation (rot_z a).
Proof. pose proof (sin2_cos2 a) as Q. unfold Rsqr in Q. split; [unfold orthogonal, rot_z; lin_unfold; apply m3_eq; lra | unfold rot_z; lin_unfold; lra]. Qed.

(** ** C40 *)
Theorem C40_residual : forall obs i j W upd st o t, (i < j)%nat -> st i = P2 o -> st j = P2 t ->
  (residual_zero (C2Poses2d obs i j W upd) st <-> same_pose2 t (compose2 o obs)).
Proof. intros obs i j W upd st o t L Hi Hj. call i j. apply poses2d_zero. Qed.
Print Assumptions C40_residual.
Theorem C40_jacobian : forall obs i j W upd st o t, (i < j)%nat -> st i = P2 o -> st j = P2 t ->
  ~ same_heading (vz t - vz o - vz obs) PI -> jacobian_right (C2Poses2d obs i j W upd) st.
Proof.
  intros obs i j W upd st o t L Hi Hj N. call i j. apply poses2d_jac. intros E. apply N.
  destruct (wrap_angle_spec (vz t - vz o - vz obs)) as [_ [k K]]. rewrite E in K. exists (- k - 1)%Z. rewrite minus_IZR, opp_IZR. lra.
Qed.
Print Assumptions C40_jacobian.
Definition ex_st2 (i : nat) : nval := if (i =? 0)%nat then P2 (mkV3 1 2 (1/2)) else P2 (mkV3 3 5 1).
Lemma heading_not_pi a : - PI < a < PI -> ~ same_heading a PI.
Proof.
  intros H [k E]. pose proof PI_RGT_0.
  assert (-1 < IZR k) by nra. assert (IZR k < 0) by nra.
  assert ((-1 < k)%Z) by (apply lt_IZR; lra). assert ((k < 0)%Z) by (apply lt_IZR; lra). lia.
Qed.
Example C40_example : exists o t, ex_st2 0 = P2 o /\ ex_st2 1 = P2 t /\ ~ same_heading (vz t - vz o - 1) PI.
Proof. do 2 eexists. split; [reflexivity|]. split; [reflexivity|]. cbn. apply heading_not_pi. pose proof PI_gt_3. lra. Qed.

(** ** C41 *)
(** turn by obs(0), drive obs(1), turn by obs(2) *)
Theorem C41_residual : forall obs i j W st o t, (i < j)%nat -> st i = P2 o -> st j = P2 t ->
  (residual_zero (COdom2d obs i j W) st <-> same_pose2 t (compose2 (compose2 o (mkV3 0 0 (vx obs))) (mkV3 (vy obs) 0 (vz obs)))).
Proof. intros obs i j W st o t L Hi Hj. call i j. rewrite <- odom_compose. apply odom_zero. Qed.
Print Assumptions C41_residual.
Theorem C41_jacobian_iff : forall obs i j W st o t, (i < j)%nat -> st i = P2 o -> st j = P2 t ->
  ~ same_heading (vz o + vx obs + vz obs - vz t) PI ->
  (jacobian_right (COdom2d obs i j W) st <-> vy obs = 0 \/ same_heading (vx obs) 0).
Proof.
  intros obs i j W st o t L Hi Hj N. call i j. apply odom_jac_iff. intros E. apply N.
  destruct (wrap_angle_spec (vz o + vx obs + vz obs - vz t)) as [_ [k K]]. rewrite E in K. exists (- k - 1)%Z. rewrite minus_IZR, opp_IZR. lra.
Qed.
Print Assumptions C41_jacobian_iff.
Lemma heading_not_0 a : 0 < a < 2 * PI -> ~ same_heading a 0.
Proof.
  intros H [k E]. pose proof PI_RGT_0. assert (0 < IZR k) by nra. assert (IZR k < 1) by nra.
  assert ((0 < k)%Z) by (apply lt_IZR; lra). assert ((k < 1)%Z) by (apply lt_IZR; lra). lia.
Qed.
(** even where the residual vanishes *)
Theorem C41_jacobian_refuted : exists obs W st, residual_zero (COdom2d obs 0 1 W) st /\ ~ jacobian_right (COdom2d obs 0 1 W) st.
Proof.
  set (obs := mkV3 1 2 0). set (o := mkV3 0 0 0). set (st := fun i => if (i =? 0)%nat then P2 o else P2 (odom_prediction o obs)).
  exists obs, (fun _ _ => 0), st. split.
  - apply (C41_residual obs 0 1 _ st o (odom_prediction o obs)); auto. rewrite odom_compose. apply same_pose2_refl.
  - intros J. apply (C41_jacobian_iff obs 0 1 _ st o (odom_prediction o obs)) in J; auto.
    + destruct J as [J|J]; [cbn in J; lra|]. revert J. apply heading_not_0. cbn. pose proof PI_gt_3. lra.
    + cbn. apply heading_not_pi. pose proof PI_gt_3. lra.
Qed.
Print Assumptions C41_jacobian_refuted.

(** ** C42 *)
(** reversed ids, at a configuration that satisfies the observation *)
Theorem C42_reversed_iff : forall obs i j W upd st o t, (j < i)%nat -> st i = P2 o -> st j = P2 t -> same_pose2 t (compose2 o obs) ->
  (residual_zero (C2Poses2d obs i j W upd) st <-> (vx obs = 0 /\ vy obs = 0) \/ same_heading (vz obs) 0).
Proof. intros obs i j W upd st o t L Hi Hj C. call i j. apply poses2d_reversed; auto. Qed.
Print Assumptions C42_reversed_iff.
Theorem C42_odom_reversed_iff : forall obs i j W st o t, (j < i)%nat -> st i = P2 o -> st j = P2 t ->
  same_pose2 t (compose2 (compose2 o (mkV3 0 0 (vx obs))) (mkV3 (vy obs) 0 (vz obs))) ->
  (residual_zero (COdom2d obs i j W) st <-> vy obs = 0 \/ same_heading (vx obs) (vz obs)).
Proof. intros obs i j W st o t L Hi Hj C. call i j. apply odom_reversed. rewrite odom_compose. auto. Qed.
Print Assumptions C42_odom_reversed_iff.
(** same observation, same poses, other numbering: one is satisfied, the other not *)
Theorem C42_numbering_refuted : exists obs W st st', st 0%nat = st' 1%nat /\ st 1%nat = st' 0%nat /\
  residual_zero (C2Poses2d obs 0 1 W false) st /\ ~ residual_zero (C2Poses2d obs 1 0 W false) st'.
Proof.
  set (obs := mkV3 1 0 1). set (o := mkV3 0 0 0). set (t := compose2 o obs).
  exists obs, (fun _ _ => 0), (fun i => if (i =? 0)%nat then P2 o else P2 t), (fun i => if (i =? 0)%nat then P2 t else P2 o).
  split; [reflexivity|]. split; [reflexivity|]. split.
  - apply (C40_residual obs 0 1 _ false _ o t); auto. apply same_pose2_refl.
  - intros Z. apply (C42_reversed_iff obs 1 0 _ false _ o t) in Z; auto using same_pose2_refl.
    destruct Z as [[Z _]|Z]; [cbn in Z; lra|]. revert Z. apply heading_not_0. cbn. pose proof PI_gt_3. lra.
Qed.
Print Assumptions C42_numbering_refuted.
Example C42_example : same_pose2 (mkV3 1 0 0) (compose2 (mkV3 0 0 0) (mkV3 1 0 0)).
Proof. unfold same_pose2, compose2. cbn. rewrite cos_0, sin_0. repeat split; try lra. exists 0%Z. lra. Qed.

(** ** C43 *)
Theorem C43_in_order : forall obs i j W upd st A B, (i < j)%nat -> st i = P3 A -> st j = P3 B -> rigid obs -> rigid A -> rigid B ->
  B = m4mul A obs -> residual_zero (C2Poses3d obs i j W upd) st.
Proof. intros obs i j W upd st A B L Hi Hj HO HA HB ->. call i j. apply poses3d_zero_eq; auto. Qed.
Print Assumptions C43_in_order.
(** reversed ids: the residual compares target * obs with the origin *)
Theorem C43_reversed : forall obs i j W upd st A, (j < i)%nat -> st i = P3 A -> st j = P3 (m4mul A obs) -> rigid obs -> rigid A ->
  (m4mul obs obs = m4id -> residual_zero (C2Poses3d obs i j W upd) st) /\
  (residual_zero (C2Poses3d obs i j W upd) st -> m4mul obs obs = m4id \/
     exists s, (s = 1 \/ s = -1) /\ fixes (mR (m4mul (m4mul A (m4mul obs obs)) (se3_inv A))) (mkV3 1 s 0)).
Proof.
  intros obs i j W upd st A L Hi Hj HO HA. call i j. split.
  - intros E. apply zero6_2poses. rewrite (proj2 (poses3d_reversed obs A HO HA) E). apply se3_ln_vee_id.
  - intros Z. apply poses3d_zero_only in Z; auto using rigid_mul. rewrite <- (poses3d_reversed obs A HO HA), (tr_id_iff obs (m4mul A obs) A) by auto using rigid_mul.
    replace (m4mul (m4mul A (m4mul obs obs)) (se3_inv A)) with (tr_2poses3d obs (m4mul A obs) A) by (unfold tr_2poses3d, se3_mul; rewrite (m4mul_assoc A); reflexivity).
    destruct Z as [Z|[Z|Z]]; auto; right; [exists 1 | exists (-1)]; auto.
Qed.
Print Assumptions C43_reversed.
(** for pure translations the reversed factor is satisfied only by the zero translation *)
Theorem C43_reversed_translation_iff : forall a t i j W upd st, (j < i)%nat ->
  st i = P3 (se3_of_Rt m3id a) -> st j = P3 (m4mul (se3_of_Rt m3id a) (se3_of_Rt m3id t)) ->
  (residual_zero (C2Poses3d (se3_of_Rt m3id t) i j W upd) st <-> t = v3zero).
Proof. intros a t i j W upd st L Hi Hj. call i j. apply reversed_trans. Qed.
Print Assumptions C43_reversed_translation_iff.
Theorem C43_numbering_refuted : exists obs W st st', rigid obs /\ st 0%nat = st' 1%nat /\ st 1%nat = st' 0%nat /\
  residual_zero (C2Poses3d obs 0 1 W false) st /\ ~ residual_zero (C2Poses3d obs 1 0 W false) st'.
Proof.
  set (obs := trans (mkV3 1 0 0)). set (A := trans v3zero).
  exists obs, (fun _ _ => 0), (fun i => if (i =? 0)%nat then P3 A else P3 (m4mul A obs)), (fun i => if (i =? 0)%nat then P3 (m4mul A obs) else P3 A).
  split; [apply trans_rigid|]. split; [reflexivity|]. split; [reflexivity|]. split.
  - apply (C43_in_order obs 0 1 _ false _ A (m4mul A obs)); auto; try apply rigid_mul; apply trans_rigid.
  - intros Z. apply (C43_reversed_translation_iff v3zero (mkV3 1 0 0) 1 0 _ false _) in Z; auto. injection Z. lra.
Qed.
Print Assumptions C43_numbering_refuted.
Example C43_example : rigid (se3_of_Rt (rot_z 1) (mkV3 1 2 3)).
Proof. apply rigid_of_Rt, rot_z_rotation. Qed.

(** ** C44 *)
(** what the call writes, and whether the new factor is then satisfied *)
Lemma set_other st i j v : i <> j -> set_st st i v j = st j.
Proof. intros N. unfold set_st. destruct (Nat.eqb_spec j i); auto. congruence. Qed.
Lemma set_same st i v : set_st st i v i = v.
Proof. unfold set_st. rewrite Nat.eqb_refl. reflexivity. Qed.
Theorem C44_poses2d_iff : forall obs i j W st o t, (i < j)%nat -> st i = P2 o -> st j = P2 t ->
  exists v, initialises (C2Poses2d obs i j W true) st j v /\
  (residual_zero (C2Poses2d obs i j W true) (set_st st j v) <-> (vx obs = 0 /\ vy obs = 0) \/ same_heading (vz o) 0).
Proof.
  intros obs i j W st o t L Hi Hj. exists (init_2poses2d obs o t). split.
  { call i j. cbn. split; auto. }
  call i j. rewrite set_same, set_other by lia. rewrite Hi. rewrite init_2poses2d_val. apply (poses2d_init obs _ o t). apply init_2poses2d_val.
Qed.
Print Assumptions C44_poses2d_iff.
Theorem C44_poses2d_refuted : exists obs W st j v, initialises (C2Poses2d obs 0 1 W true) st j v /\ ~ residual_zero (C2Poses2d obs 0 1 W true) (set_st st j v).
Proof.
  set (st := fun i : nat => if (i =? 0)%nat then P2 (mkV3 0 0 1) else P2 (mkV3 0 0 0)).
  destruct (C44_poses2d_iff (mkV3 1 0 0) 0 1 (fun _ _ => 0) st (mkV3 0 0 1) (mkV3 0 0 0)) as (v & I & Z); auto.
  exists (mkV3 1 0 0), (fun _ _ => 0), st, 1%nat, v. split; auto. rewrite Z. intros [[X _]|X]; [cbn in X; lra|].
  revert X. apply heading_not_0. cbn. pose proof PI_gt_3. lra.
Qed.
Print Assumptions C44_poses2d_refuted.
Theorem C44_odom : forall obs i j W st o t, (i < j)%nat -> st i = P2 o -> st j = P2 t ->
  exists v, initialises (COdom2d obs i j W) st j v /\ residual_zero (COdom2d obs i j W) (set_st st j v).
Proof.
  intros obs i j W st o t L Hi Hj. exists (init_odom obs o t). split.
  { call i j. cbn. split; auto. }
  call i j. rewrite set_same, set_other by lia. rewrite Hi. rewrite init_odom_val. apply (odom_init obs _ o t). apply init_odom_val.
Qed.
Print Assumptions C44_odom.
Theorem C44_poses3d : forall obs i j W st A B, (i < j)%nat -> st i = P3 A -> st j = P3 B -> rigid obs -> rigid A ->
  initialises (C2Poses3d obs i j W true) st j (P3 (m4mul A obs)) /\
  residual_zero (C2Poses3d obs i j W true) (set_st st j (P3 (m4mul A obs))).
Proof.
  intros obs i j W st A B L Hi Hj HO HA. split. { call i j. cbn. split; auto. }
  apply (C43_in_order obs i j W true _ A (m4mul A obs)); auto using rigid_mul. rewrite set_other by lia. auto. apply set_same.
Qed.
Print Assumptions C44_poses3d.
(** reversed ids: the target is put at A * obs, where the reversed factor is not satisfied *)
Theorem C44_reversed_refuted : exists obs W st, initialises (C2Poses3d obs 1 0 W true) st 0 (P3 (m4mul m4id obs)) /\
  ~ residual_zero (C2Poses3d obs 1 0 W true) (set_st st 0 (P3 (m4mul m4id obs))).
Proof.
  exists (trans (mkV3 1 0 0)), (fun _ _ => 0), (fun _ => P3 m4id). split. { split; reflexivity. }
  intros Z. apply (C43_reversed_translation_iff v3zero (mkV3 1 0 0) 1 0) in Z; auto; try (injection Z; lra).
Qed.
Print Assumptions C44_reversed_refuted.
Example C44_example : exists v, initialises (COdom2d (mkV3 1 2 3) 0 1 (fun _ _ => 0)) ex_st2 1 v.
Proof. eexists. split; reflexivity. Qed.

(** ** C45 *)
Theorem C45_residual : forall range bearing i j W init st x a b, i <> j -> st i = P2 x -> st j = L2 a b ->
  0 <= range -> 1 / 1000000 <= (a - vx x) * (a - vx x) + (b - vy x) * (b - vy x) ->
  (residual_zero (CLandmark2d range bearing i j W init) st <->
   a = vx x + range * cos (vz x + bearing) /\ b = vy x + range * sin (vz x + bearing)).
Proof.
  intros range bearing i j W init st x a b N Hi Hj Rn G. call i j;
  [apply (landmark2d_zero range bearing false init) | apply (landmark2d_zero range bearing true init)]; auto.
Qed.
Print Assumptions C45_residual.
(** d is the direction of the landmark seen from the pose *)
Theorem C45_jacobian : forall range bearing i j W init st x a b, i <> j -> st i = P2 x -> st j = L2 a b ->
  1 / 1000000 < (a - vx x) * (a - vx x) + (b - vy x) * (b - vy x) ->
  (forall d r, 0 < r -> a - vx x = r * cos d -> b - vy x = r * sin d -> ~ same_heading (d - vz x - bearing) PI) ->
  jacobian_right (CLandmark2d range bearing i j W init) st.
Proof.
  intros range bearing i j W init st x a b N Hi Hj G U.
  assert (X : wrap_angle (atan2 (b - vy x) (a - vx x) - vz x - bearing) <> - PI).
  { intros E. destruct (atan2_spec (a - vx x) (b - vy x)) as [A B]; [lra|].
    apply (U (atan2 (b - vy x) (a - vx x)) (sqrt ((a - vx x) * (a - vx x) + (b - vy x) * (b - vy x)))); auto.
    { apply sqrt_lt_R0. lra. }
    destruct (wrap_angle_spec (atan2 (b - vy x) (a - vx x) - vz x - bearing)) as [_ [k K]]. rewrite E in K. exists (- k - 1)%Z. rewrite minus_IZR, opp_IZR. lra. }
  call i j; [apply (landmark2d_jac range bearing false init) | apply (landmark2d_jac range bearing true init)]; auto.
Qed.
Print Assumptions C45_jacobian.
Theorem C45_initialise : forall range bearing i j W st x a b, i <> j -> st i = P2 x -> st j = L2 a b -> 0 <= range ->
  exists v, initialises (CLandmark2d range bearing i j W true) st j v /\ residual_zero (CLandmark2d range bearing i j W true) (set_st st j v).
Proof.
  intros range bearing i j W st x a b N Hi Hj Rn. exists (init_landmark2d range bearing x). split.
  - call i j; cbn; split; auto.
  - call i j; rewrite set_same, set_other, Hi by lia; unfold init_landmark2d;
    [apply (landmark2d_init_zero range bearing false true x) | apply (landmark2d_init_zero range bearing true true x)]; auto.
Qed.
Print Assumptions C45_initialise.
(** within a millimetre the residual is zero whatever was observed *)
Theorem C45_close_refuted : exists range bearing W st x a b, st 0%nat = P2 x /\ st 1%nat = L2 a b /\ 0 <= range /\
  residual_zero (CLandmark2d range bearing 0 1 W false) st /\ ~ (a = vx x + range * cos (vz x + bearing) /\ b = vy x + range * sin (vz x + bearing)).
Proof.
  exists 100, 0, (fun _ _ => 0), (fun i => if (i =? 0)%nat then P2 (mkV3 0 0 0) else L2 0 0), (mkV3 0 0 0), 0, 0.
  split; [reflexivity|]. split; [reflexivity|]. split; [lra|]. split.
  - intros k Hk. cbn [map Nat.eqb fc_res c_landmark2d]. rewrite landmark2d_close by (unfold gap2; cbn; lra). destruct k as [|[|k]]; try reflexivity. cbn in Hk. lia.
  - cbn. rewrite Rplus_0_r, cos_0. lra.
Qed.
Print Assumptions C45_close_refuted.
Example C45_example : exists x a b, ex_st2 0 = P2 x /\ 0 <= 2 /\ 1 / 1000000 < (a - vx x) * (a - vx x) + (b - vy x) * (b - vy x) /\ a = 4 /\ b = 3.
Proof. exists (mkV3 1 2 (1/2)), 4, 3. cbn. repeat split; auto; lra. Qed.

(** ** C46 *)
Theorem C46_residual : forall obs i j W init st T l, i <> j -> st i = P3 T -> st j = L3 l -> rigid T ->
  (residual_zero (CLandmark3d obs i j W init) st <-> l = v3add (m3app (mR T) obs) (mt T)).
Proof.
  intros obs i j W init st T l N Hi Hj HT. call i j; [apply (landmark3d_zero obs false) | apply (landmark3d_zero obs true)]; auto.
Qed.
Print Assumptions C46_residual.
Theorem C46_jacobian : forall obs i j W init st T l, i <> j -> st i = P3 T -> st j = L3 l -> rigid T ->
  jacobian_right (CLandmark3d obs i j W init) st.
Proof.
  intros obs i j W init st T l N Hi Hj HT. call i j; [apply (landmark3d_jac obs false) | apply (landmark3d_jac obs true)]; auto.
Qed.
Print Assumptions C46_jacobian.
(** initializeLandmark = true initialises nothing *)
Theorem C46_no_initialisation : forall obs i j W init st k v, ~ initialises (CLandmark3d obs i j W init) st k v.
Proof. intros obs i j W init st k v. unfold initialises, call_factor. cbn [pycall_op]. destruct (i <? j)%nat; cbn; auto. Qed.
Print Assumptions C46_no_initialisation.
Theorem C46_initialise_refuted : exists obs W st, (forall k v, ~ initialises (CLandmark3d obs 0 1 W true) st k v) /\
  ~ residual_zero (CLandmark3d obs 0 1 W true) st.
Proof.
  exists (mkV3 1 0 0), (fun _ _ => 0), (fun i => if (i =? 0)%nat then P3 m4id else L3 v3zero). split; [intros; apply C46_no_initialisation|].
  intros Z. apply (C46_residual (mkV3 1 0 0) 0 1 _ true _ m4id v3zero) in Z; auto using rigid_id. apply (f_equal vx) in Z. revert Z. lin_unfold. lra.
Qed.
Print Assumptions C46_initialise_refuted.
Example C46_example : rigid (se3_of_Rt (rot_x 2) (mkV3 1 2 3)).
Proof. apply rigid_of_Rt, rot_x_rotation. Qed.

(** ** C47 *)
(** a point of the pose frame is on the observed plane iff its image is on the landmark plane *)
Definition on_plane (n : V3) (d : R) (q : V3) : Prop := v3dot n q + d = 0.
Theorem C47_residual : forall obs i j W st T p, i <> j -> st i = P3 T -> st j = PL p ->
  let local := m4app (m4tr T) p in
  (residual_zero (CPlane4d obs i j W) st <->
   (0 <= v4l local /\ local = plane_normalize obs) \/ (v4l local < 0 /\ local = v4scal (-1) (plane_normalize obs))).
Proof.
  intros obs i j W st T p N Hi Hj local. call i j; [apply (plane4d_zero obs false) | apply (plane4d_zero obs true)].
Qed.
Print Assumptions C47_residual.
Theorem C47_same_plane : forall obs i j W st T p, i <> j -> st i = P3 T -> st j = PL p -> rigid T -> v3sqn (v4h obs) = 1 ->
  residual_zero (CPlane4d obs i j W) st ->
  forall q, on_plane (v4h obs) (v4l obs) q <-> on_plane (v4h p) (v4l p) (v3add (m3app (mR T) q) (mt T)).
Proof.
  intros obs i j W st T p N Hi Hj HT U Z q. apply (C47_residual obs i j W st T p N Hi Hj) in Z.
  assert (PN : plane_normalize obs = obs).
  { destruct obs as [n d]. unfold plane_normalize, v3normalize. cbn [v4h v4l] in *. unfold v3norm. fold (v3sqn n). rewrite U, (Rltb_lt 0) by lra. rewrite sqrt_1.
    f_equal. destruct n. lin_unfold. f_equal; field. }
  rewrite PN in Z. cbv zeta in Z. destruct HT as (_ & B0 & C0).
  assert (L : v3dot (v4h p) (v3add (m3app (mR T) q) (mt T)) + v4l p = v3dot (v4h (m4app (m4tr T) p)) q + v4l (m4app (m4tr T) p)).
  { destruct T as [A t b c]. cbn in B0, C0. subst b c. destruct p, q, A, t. lin_unfold. ring. }
  unfold on_plane. rewrite L. destruct Z as [[_ E]|[_ E]]; rewrite E; [tauto|].
  destruct obs as [n d]. replace (v3dot (v4h (v4scal (-1) (mkV4 n d))) q + v4l (v4scal (-1) (mkV4 n d))) with (- (v3dot n q + d)) by (destruct n, q; lin_unfold; ring).
  cbn [v4h v4l]. split; lra.
Qed.
Print Assumptions C47_same_plane.
Theorem C47_jacobian : forall obs i j W st T p, i <> j -> st i = P3 T -> st j = PL p -> rigid T ->
  v4l (m4app (m4tr T) p) <> 0 -> jacobian_right (CPlane4d obs i j W) st.
Proof.
  intros obs i j W st T p N Hi Hj HT L. call i j; [apply (plane4d_jac obs false) | apply (plane4d_jac obs true)]; auto.
Qed.
Print Assumptions C47_jacobian.
(** but the solver normalises the plane after its step: along such an update the
    residual need not follow the Jacobian *)
Theorem C47_update_refuted : exists obs T p d, rigid T /\ v3sqn (v4h p) = 1 /\
  exists i, (i < 4)%nat /\ ~ derivable_pt_lim (fun s => fc_res (c_plane4d obs false) [P3 T; val_update (PL p) (fun k => s * d k)] i) 0
     (row_dir (fc_jac (c_plane4d obs false) [P3 T; PL p] i) 0 [P3 T; PL p] [fun _ => 0; d]).
Proof.
  set (p := mkV4 (mkV3 1 0 0) 1). set (d := fun k : nat => if (k =? 0)%nat then 1 else 0).
  exists p, m4id, p, d. split; [apply rigid_id|]. split; [unfold p; lin_unfold; ring|]. exists 0%nat. split; [lia|]. intros H.
  assert (C : derivable_pt_lim (fun s => fc_res (c_plane4d p false) [P3 m4id; val_update (PL p) (fun k => s * d k)] 0) 0 0).
  { destruct (plane_scale_curve (mkV3 1 0 0) 1) as (e & He & E). { lin_unfold. ring. }
    eapply dl_near with (f := fun _ => fc_res (c_plane4d p false) [P3 m4id; PL p] 0%nat); [exact He| |apply dl_const].
    intros s Hs. specialize (E s Hs). cbn [val_update].
    replace (v4add p (dx4 (fun k => s * d k))) with (mkV4 (v3add (mkV3 1 0 0) (v3scal s (mkV3 1 0 0))) 1) by (unfold p, d, dx4; lin_unfold; cbn; f_equal; try f_equal; ring).
    rewrite E. reflexivity. }
  pose proof (dl_unique _ _ _ _ H C) as Q. unfold d in Q. cbn in Q. lra.
Qed.
Print Assumptions C47_update_refuted.
Example C47_example : exists T p, rigid T /\ v3sqn (v4h p) = 1 /\ v4l (m4app (m4tr T) p) <> 0.
Proof.
  exists (se3_of_Rt m3id (mkV3 0 0 1)), (mkV4 (mkV3 0 0 1) 2). split; [apply trans_rigid|]. split; [lin_unfold; ring|]. unfold se3_of_Rt. lin_unfold. lra.
Qed.

(** ** C48 *)
Theorem C48_prior_residual : forall obs i W st T, st i = P3 T -> rigid obs -> rigid T ->
  (T = obs -> residual_zero (CPose3d obs i W) st) /\
  (residual_zero (CPose3d obs i W) st -> T = obs \/
     exists s, (s = 1 \/ s = -1) /\ fixes (m3mul (mR T) (m3tr (mR obs))) (mkV3 1 s 0)).
Proof.
  intros obs i W st T Hi HO HT. unfold residual_zero, call_factor. cbn [pycall_op map]. rewrite Hi. split.
  - intros ->. apply pose3d_zero_eq; auto.
  - intros Z. destruct (pose3d_zero_only _ _ HO HT Z) as [E|[E|E]]; auto; right; [exists 1 | exists (-1)]; auto.
Qed.
Print Assumptions C48_prior_residual.
Theorem C48_relative_residual : forall obs i j W upd st A B, (i < j)%nat -> st i = P3 A -> st j = P3 B -> rigid obs -> rigid A -> rigid B ->
  (B = m4mul A obs -> residual_zero (C2Poses3d obs i j W upd) st) /\
  (residual_zero (C2Poses3d obs i j W upd) st -> B = m4mul A obs \/
     exists s, (s = 1 \/ s = -1) /\ fixes (mR (m4mul (m4mul A obs) (se3_inv B))) (mkV3 1 s 0)).
Proof.
  intros obs i j W upd st A B L Hi Hj HO HA HB. split. { apply C43_in_order; auto. }
  call i j. intros Z. destruct (poses3d_zero_only _ _ _ _ HO HA HB Z) as [E|[E|E]]; auto; right; [exists 1 | exists (-1)]; auto.
Qed.
Print Assumptions C48_relative_residual.
(** a prior satisfied half a turn away from the observation *)
Theorem C48_half_turn_refuted : exists obs W st T, rigid obs /\ rigid T /\ st 0%nat = P3 T /\ T <> obs /\ residual_zero (CPose3d obs 0 W) st.
Proof.
  exists m4id, (fun _ _ => 0), (fun _ => P3 (se3_of_Rt half_turn_xy v3zero)), (se3_of_Rt half_turn_xy v3zero).
  split; [apply rigid_id|]. split; [apply rigid_of_Rt, half_turn_xy_rotation|]. split; [reflexivity|]. split.
  { intros E. apply (f_equal mR) in E. revert E. apply half_turn_xy_not_id. }
  unfold residual_zero, call_factor. cbn [pycall_op map]. apply zero6_pose. unfold se3_mul.
  replace (m4mul (se3_of_Rt half_turn_xy v3zero) (se3_inv m4id)) with (se3_of_Rt half_turn_xy v3zero).
  2:{ replace (se3_inv m4id) with m4id by (unfold se3_inv; cbn [mR mt m4id]; lin). rewrite m4mul_id_r. reflexivity. }
  rewrite (se3_ln_vee_block (se3_of_Rt half_turn_xy v3zero) v3zero PI).
  2:{ cbn [mR se3_of_Rt]. rewrite ln_half_turn_xy. f_equal. unfold hat3; lin. }
  rewrite rod_zero, m3app_id. reflexivity.
Qed.
Print Assumptions C48_half_turn_refuted.
(** the Jacobians I and [I, -Adj] are right at zero residual ... *)
Theorem C48_prior_jacobian : forall obs i W st, st i = P3 obs -> rigid obs -> jacobian_right (CPose3d obs i W) st.
Proof. intros obs i W st Hi HO. unfold jacobian_right, call_factor. cbn [pycall_op map]. rewrite Hi. apply pose3d_jac_zero; auto. Qed.
Print Assumptions C48_prior_jacobian.
Theorem C48_relative_jacobian : forall obs i j W upd st A, (i < j)%nat -> st i = P3 A -> st j = P3 (m4mul A obs) -> rigid obs -> rigid A ->
  jacobian_right (C2Poses3d obs i j W upd) st.
Proof. intros obs i j W upd st A L Hi Hj HO HA. call i j. apply poses3d_jac; auto. Qed.
Print Assumptions C48_relative_jacobian.
(** ... and, when the rotations already agree, only there *)
Theorem C48_prior_jacobian_iff : forall obs i W st T, st i = P3 T -> rigid obs -> rigid T -> mR T = mR obs ->
  (jacobian_right (CPose3d obs i W) st <-> T = obs).
Proof. intros obs i W st T Hi HO HT HR. unfold jacobian_right, call_factor. cbn [pycall_op map]. rewrite Hi. apply pose3d_jac_iff; auto. Qed.
Print Assumptions C48_prior_jacobian_iff.
Theorem C48_relative_jacobian_iff : forall obs i j W upd st A B, (i < j)%nat -> st i = P3 A -> st j = P3 B -> rigid obs -> rigid A -> rigid B ->
  mR (m4mul (m4mul A obs) (se3_inv B)) = m3id -> (jacobian_right (C2Poses3d obs i j W upd) st <-> B = m4mul A obs).
Proof. intros obs i j W upd st A B L Hi Hj HO HA HB HR. call i j. apply poses3d_jac_iff; auto. Qed.
Print Assumptions C48_relative_jacobian_iff.
Theorem C48_jacobian_refuted : exists obs W st T, rigid obs /\ rigid T /\ st 0%nat = P3 T /\ ~ jacobian_right (CPose3d obs 0 W) st.
Proof.
  exists m4id, (fun _ _ => 0), (fun _ => P3 (trans (mkV3 1 0 0))), (trans (mkV3 1 0 0)).
  split; [apply rigid_id|]. split; [apply trans_rigid|]. split; [reflexivity|]. intros J.
  apply (C48_prior_jacobian_iff m4id 0 _ _ (trans (mkV3 1 0 0)) eq_refl rigid_id (trans_rigid _) eq_refl) in J.
  apply (f_equal (fun T => vx (mt T))) in J. cbn in J. lra.
Qed.
Print Assumptions C48_jacobian_refuted.
Example C48_example : rigid (se3_of_Rt (rot_y 1) (mkV3 1 2 3)) /\ rigid (se3_of_Rt (rot_z 3) (mkV3 0 1 0)).
Proof. split; apply rigid_of_Rt; [apply rot_y_rotation | apply rot_z_rotation]. Qed.

(** ** C49 *)
Theorem C49_residual : forall obs i W st x, st i = P2 x -> (residual_zero (CPose2d obs i W) st <-> same_pose2 x obs).
Proof. intros obs i W st x Hi. unfold residual_zero, call_factor. cbn [pycall_op map]. rewrite Hi. apply pose2d_zero. Qed.
Print Assumptions C49_residual.
Theorem C49_jacobian : forall obs i W st x, st i = P2 x -> ~ same_heading (vz x - vz obs) PI -> jacobian_right (CPose2d obs i W) st.
Proof.
  intros obs i W st x Hi N. unfold jacobian_right, call_factor. cbn [pycall_op map]. rewrite Hi. apply pose2d_jac. intros E. apply N.
  destruct (wrap_angle_spec (vz x - vz obs)) as [_ [k K]]. rewrite E in K. exists (- k - 1)%Z. rewrite minus_IZR, opp_IZR. lra.
Qed.
Print Assumptions C49_jacobian.
Example C49_example : ~ same_heading (1/2 - 0) PI.
Proof. apply heading_not_pi. pose proof PI_gt_3. lra. Qed.

(** ** C50 *)
Theorem C50_residual : forall zx zy n i W st T, st i = P3 T ->
  (residual_zero (CPoint2Plane zx zy n i W) st <-> v3dot n (v3sub (v3add (m3app (mR T) zx) (mt T)) zy) = 0).
Proof. intros zx zy n i W st T Hi. unfold residual_zero, call_factor. cbn [pycall_op map]. rewrite Hi. apply point2plane_zero. Qed.
Print Assumptions C50_residual.
(** the residual itself is the signed distance when n is a unit normal of the plane through zy *)
Theorem C50_distance : forall zx zy n T, v3sqn n = 1 ->
  let q := v3add (m3app (mR T) zx) (mt T) in
  let foot := v3sub q (v3scal (fc_res (c_point2plane zx zy n) [P3 T] 0%nat) n) in
  v3dot n (v3sub foot zy) = 0 /\ v3norm (v3sub q foot) = Rabs (fc_res (c_point2plane zx zy n) [P3 T] 0%nat) /\
  forall f, v3dot n (v3sub f zy) = 0 -> v3norm (v3sub q foot) <= v3norm (v3sub q f).
Proof.
  intros zx zy n T U q foot. set (r := fc_res (c_point2plane zx zy n) [P3 T] 0%nat) in *.
  assert (Er : r = v3dot n (v3sub q zy)) by reflexivity. clearbody r q.
  assert (F : v3sub q foot = v3scal r n) by (unfold foot; destruct q, n; lin_unfold; f_equal; ring).
  assert (NF : v3norm (v3sub q foot) = Rabs r). { rewrite F, v3norm_scal. unfold v3norm. fold (v3sqn n). rewrite U, sqrt_1. ring. }
  split; [|split; auto].
  - unfold foot. replace (v3dot n (v3sub (v3sub q (v3scal r n)) zy)) with (v3dot n (v3sub q zy) - r * v3sqn n) by (destruct n, q, zy; lin_unfold; ring). rewrite U, <- Er. ring.
  - intros f Hf. rewrite NF. assert (Q : r = v3dot n (v3sub q f)).
    { rewrite Er. replace (v3dot n (v3sub q zy)) with (v3dot n (v3sub q f) + v3dot n (v3sub f zy)) by (destruct n, q, zy, f; lin_unfold; ring). rewrite Hf. ring. }
    rewrite Q, <- sqrt_Rsqr_abs. unfold v3norm. apply sqrt_le_1_alt. unfold Rsqr. rewrite <- (Rmult_1_l (v3sqn (v3sub q f))), <- U.
    generalize (v3sub q f). intros w. pose proof (Rle_0_sqr (vx n * vy w - vy n * vx w)). pose proof (Rle_0_sqr (vy n * vz w - vz n * vy w)). pose proof (Rle_0_sqr (vz n * vx w - vx n * vz w)).
    unfold Rsqr in *. destruct n, w. revert H H0 H1. lin_unfold. cbn. intros. nra.
Qed.
Print Assumptions C50_distance.
Theorem C50_jacobian : forall zx zy n i W st T, st i = P3 T -> rigid T -> jacobian_right (CPoint2Plane zx zy n i W) st.
Proof. intros zx zy n i W st T Hi HT. unfold jacobian_right, call_factor. cbn [pycall_op map]. rewrite Hi. apply point2plane_jac; auto. Qed.
Print Assumptions C50_jacobian.
Example C50_example : rigid m4id /\ v3sqn (mkV3 0 0 1) = 1.
Proof. split; [apply rigid_id|]. lin_unfold. ring. Qed.

(** ** the curves along which the Jacobians are derivatives include the updates of the nodes *)
Theorem C40_updates : forall v d,
  match v with
  | P2 x => - PI < vz x < PI
  | P3 T => rigid T
  | PL p => v3sqn (v4h p) = 1 /\ v3dot (v4h p) (dx3 d) = 0
  | _ => True
  end -> tangent (fun s => val_update_aux v (fun k => s * d k)) v d.
Proof.
  intros [x|T|a b|p|p] d H.
  - apply wrap_curve_tangent; auto.
  - apply update_aux_tangent; auto.
  - apply landmark2_tangent.
  - apply landmark3_tangent.
  - apply plane_tangent; tauto.
Qed.
Print Assumptions C40_updates.

(** ** C66 *)
(** every program of typed Python calls runs without undefined behaviour, keeps
    the graph well-formed, and chi2 is the sum over the calls made so far *)
Theorem C66_sessions : forall lin rob cs, typed [] cs ->
  exists s, pycalls lin rob (solver_new world_new) cs = Some s /\ wf (s_w s) /\
    number_nodes (s_w s) = length (fold_left kinds_after cs []) /\
    (forall i, (i < number_nodes (s_w s))%nat -> nth_error (fold_left kinds_after cs []) i = Some (kind_of (state_of (s_w s) i))) /\
    snd (chi2 true (s_w s)) = lsum cs (call_chi2 (state_of (s_w s))).
Proof.
  intros lin rob cs H. destruct (typed_run lin rob cs [] [] (solver_new world_new) good_new tracks_new H) as (s & E & D & T). cbn [app] in T.
  exists s. split; auto. split; [apply D|]. split; [apply (tk_len _ _ _ T)|]. split.
  - intros i L. unfold state_of, get_node, number_nodes in *. destruct (nth_error (g_nodes (w_graph (s_w s))) i) as [l|] eqn:G.
    + apply (tk_kind _ _ _ T i l G).
    + apply nth_error_None in G. lia.
  - rewrite (proj1 (C39_chi2 (s_w s) (wf_factors _ (gd_wf _ D)))). apply (tracks_chi2 _ _ _ T).
Qed.
Print Assumptions C66_sessions.
(** solving with LM never increases it, anywhere in such a program *)
Theorem C66_lm_never_worse : forall lin rob cs k lambda tol s s', typed [] cs ->
  pycalls lin rob (solver_new world_new) cs = Some s -> solve lin LM k lambda tol s = Some s' ->
  lsum cs (call_chi2 (state_of (s_w s'))) <= lsum cs (call_chi2 (state_of (s_w s))).
Proof.
  intros lin rob cs k lambda tol s s' H E E'. destruct (typed_run lin rob cs [] [] (solver_new world_new) good_new tracks_new H) as (s1 & E1 & D & T).
  rewrite E in E1. injection E1 as <-. cbn [app] in T.
  assert (T' : tracks (fold_left kinds_after cs []) (flat_map facts cs) (s_w s')).
  { destruct (solve_frame _ _ _ _ _ _ _ E') as (SK & _ & K). eapply tracks_skel; eauto. }
  rewrite <- (tracks_chi2 _ _ _ T), <- (tracks_chi2 _ _ _ T').
  eapply C36_lm_never_worse; [exact (wf_factors _ (gd_wf _ D)) | apply (tracks_wrap _ _ _ T) | exact E'].
Qed.
Print Assumptions C66_lm_never_worse.
Definition ex_calls : list pycall :=
  [CNode ANCHOR (P2 (mkV3 0 0 0)); CNode STANDARD (P2 (mkV3 0 0 0)); COdom2d (mkV3 0 1 0) 0 1 id_mat;
   CNode STANDARD (L2 0 0); CLandmark2d 2 1 1 2 id_mat true; CSolve LM 20 0 0; CChi2 true;
   CNode STANDARD (P3 m4id); CPose3d m4id 3 id_mat; CSolve GN 1 0 0].
Example C66_example : typed [] ex_calls.
Proof. unfold ex_calls. cbn. repeat split; discriminate. Qed.
