(** Property theorems C01-C10 (class SO3, quaternions, roll-pitch-yaw).
    Only statements closed by lemmas, assumptions and non-vacuity examples. *)
Require Import Reals Lra Lia ZArith List.
From Verif Require Import Lin LinFacts SO3 SO3Ops SpecGeom SO3Exp SO3ExpTrue SO3Ln SO3Misc SO3Near SE3NearPi SO3Dist SO3Tri TrigBounds SE3Alg.
Import ListNotations.
Local Open Scope R_scope.

(** ** C01 *)
Theorem C01_so3_exp_is_rotation : forall w : V3,
  (w = v3zero \/ 1 / 100000 <= v3norm w -> rotation (so3_of_vec w)) /\
  m3_within (/ 10 ^ 30) (m3sub (m3mul (m3tr (so3_of_vec w)) (so3_of_vec w)) m3id) /\
  Rabs (m3det (so3_of_vec w) - 1) <= / 10 ^ 30.
Proof. intros w. split; [exact (so3_update_ok w) | exact (so3_exp_near_rotation w)]. Qed.
Print Assumptions C01_so3_exp_is_rotation.
Example C01_example : 1 / 100000 <= v3norm (mkV3 1 2 2).
Proof.
  replace (v3norm (mkV3 1 2 2)) with 3; [lra|]. unfold v3norm.
  replace (v3sqn (mkV3 1 2 2)) with (3 * 3) by (lin_unfold; ring). symmetry; apply sqrt_square; lra.
Qed.

(** ** C02 *)
(** The result is the matrix exponential of the cross-product matrix (the value at
    1 of the solution of E' = hat(w) E, E(0) = I, which is unique), exactly
    outside the Taylor window and within 1e-26 for every w. *)
Theorem C02_so3_exp_is_matrix_exponential : forall w : V3,
  (w = v3zero \/ 1 / 100000 <= v3norm w -> matrix_exp3 (hat3 w) (so3_of_vec w)) /\
  (exists E, matrix_exp3 (hat3 w) E /\ m3_within (/ 10 ^ 26) (m3sub (so3_of_vec w) E)).
Proof. intros w. split; [exact (so3_exp_is_exp w) | exact (so3_exp_near_exp w)]. Qed.
Print Assumptions C02_so3_exp_is_matrix_exponential.
Theorem C02_matrix_exponential_unique : forall W M N,
  skew W -> matrix_exp3 W M -> matrix_exp3 W N -> M = N.
Proof. exact matrix_exp3_unique. Qed.
Print Assumptions C02_matrix_exponential_unique.
Theorem C02_one_parameter_subgroup : forall (w : V3) (a b : R), w <> v3zero ->
  (a = 0 \/ 1 / 100000 <= v3norm (v3scal a w)) ->
  (b = 0 \/ 1 / 100000 <= v3norm (v3scal b w)) ->
  (a + b = 0 \/ 1 / 100000 <= v3norm (v3scal (a + b) w)) ->
  so3_mul (so3_of_vec (v3scal a w)) (so3_of_vec (v3scal b w)) = so3_of_vec (v3scal (a + b) w).
Proof.
  intros w a b Hw Ha Hb Hab. unfold so3_mul. rewrite !so3_exp_curve by auto. exact (rot_curve_add w a b Hw).
Qed.
Print Assumptions C02_one_parameter_subgroup.
Example C02_example : exists (w : V3) a b, w <> v3zero /\ 1 / 100000 <= v3norm (v3scal a w) /\
  1 / 100000 <= v3norm (v3scal b w) /\ 1 / 100000 <= v3norm (v3scal (a + b) w).
Proof.
  exists (mkV3 1 2 2), 2, 5.
  assert (E : v3norm (mkV3 1 2 2) = 3).
  { unfold v3norm. replace (v3sqn (mkV3 1 2 2)) with (3 * 3) by (lin_unfold; ring). apply sqrt_square; lra. }
  split; [intros H; injection H; intros; lra|].
  rewrite !v3norm_scal, E, !Rabs_right by lra. lra.
Qed.

(** ** C03 *)
(** [axis_diag w]: the axis is (1,1,0) or (1,-1,0). *)
Definition axis_diag (w : V3) : Prop := vz w = 0 /\ (vx w = vy w \/ vx w = - vy w).
Lemma axis_diag_bad w : axis_diag w <-> bad_axis w.
Proof.
  destruct w as [x y z]; unfold axis_diag, bad_axis; cbn; split.
  - intros [-> [-> | ->]]; split; auto; ring.
  - intros [H ->]; split; auto. assert (D : (x - y) * (x + y) = 0) by lra.
    apply Rmult_integral in D. destruct D; [left|right]; lra.
Qed.
(** Exact on the whole range except exactly the diagonal axes from 90 degrees on. *)
Theorem C03_ln_of_exp : forall w : V3,
  1 / 100000 <= v3norm w <= PI - 6 / 100000000 ->
  snd (so3_ln (so3_of_vec w)) = v3norm w /\
  (~ (axis_diag w /\ PI / 2 <= v3norm w) -> so3_ln_vee (so3_of_vec w) = w) /\
  (axis_diag w /\ PI / 2 <= v3norm w -> so3_ln_vee (so3_of_vec w) = v3zero).
Proof.
  intros w H.
  assert (D : bad_axis w /\ PI / 2 <= v3norm w \/ ~ (bad_axis w /\ PI / 2 <= v3norm w)).
  { destruct (Rle_dec (PI / 2) (v3norm w)) as [A|A]; [|right; tauto].
    unfold bad_axis. destruct (Req_dec (vx w * vx w) (vy w * vy w)); [|right; tauto].
    destruct (Req_dec (vz w) 0); [left|right]; tauto. }
  rewrite axis_diag_bad. destruct D as [[B A]|D].
  - unfold so3_ln_vee. rewrite (ln_exp_bad w B) by lra. cbn [fst snd]. split; [reflexivity|]. split; [tauto|].
    intros _. unfold vee3, v3zero; cbn. apply v3_eq; ring.
  - unfold so3_ln_vee. rewrite (ln_exp w) by (auto; lra). cbn [fst snd]. split; [reflexivity|]. split; [|tauto].
    intros _. apply vee3_hat3.
Qed.
Print Assumptions C03_ln_of_exp.
Theorem C03_ln_of_exp_zero : so3_ln_vee (so3_of_vec v3zero) = v3zero /\ snd (so3_ln (so3_of_vec v3zero)) = 0.
Proof. unfold so3_ln_vee. rewrite ln_exp_zero. split; [unfold vee3, v3zero; cbn; apply v3_eq; ring | reflexivity]. Qed.
Print Assumptions C03_ln_of_exp_zero.
(** The Taylor window. *)
Theorem C03_ln_of_exp_small : forall w : V3, 0 < v3norm w < 1 / 100000 ->
  v3_within (/ 10 ^ 26) (v3sub (so3_ln_vee (so3_of_vec w)) w) /\
  Rabs (snd (so3_ln (so3_of_vec w)) - v3norm w) <= / 10 ^ 25.
Proof. exact ln_exp_small. Qed.
Print Assumptions C03_ln_of_exp_small.
(** The window below pi, outside the tie |w0| = |w1| > |w2| with |w2| < 1e-4. *)
Theorem C03_ln_of_exp_near_pi : forall w : V3, PI - 6 / 100000000 < v3norm w < PI ->
  ~ (vx w * vx w = vy w * vy w /\ vz w * vz w < vx w * vx w /\ Rabs (vz w) < 1 / 10000) ->
  v3norm (v3sub (so3_ln_vee (so3_of_vec w)) w) <= 7 / 100000000 /\ snd (so3_ln (so3_of_vec w)) = PI.
Proof. intros w H Ht. pose proof PI_gt_3. rewrite so3_of_vec_rodx by lra. exact (ln_near_pi w H Ht). Qed.
Print Assumptions C03_ln_of_exp_near_pi.
Theorem C03_ln_of_exp_near_pi_diag : forall w : V3, PI - 6 / 100000000 < v3norm w < PI -> axis_diag w ->
  exists s, (s = 1 \/ s = -1) /\ so3_ln (so3_of_vec w) = (hat3 (mkV3 0 0 (s * PI)), PI).
Proof.
  intros w H Ht. pose proof PI_gt_3. rewrite so3_of_vec_rodx by lra.
  exact (ln_near_pi_bad w H (proj1 (axis_diag_bad w) Ht)).
Qed.
Print Assumptions C03_ln_of_exp_near_pi_diag.
(** The property a user expects, for every axis, and its refutation: a rotation by
    120 degrees about (1,1,0)/sqrt 2 is reported as the zero rotation. *)
Definition C03_expected : Prop := forall w : V3,
  1 / 100000 <= v3norm w <= PI - 6 / 100000000 -> so3_ln_vee (so3_of_vec w) = w.
Lemma v3norm_diag a : 0 <= a -> v3norm (mkV3 a a 0) = a * sqrt 2.
Proof.
  intros Ha. unfold v3norm. replace (v3sqn (mkV3 a a 0)) with ((a * a) * 2) by (lin_unfold; ring).
  rewrite sqrt_mult, sqrt_square; nra.
Qed.
Lemma C03_witness : axis_diag (mkV3 (3/2) (3/2) 0) /\
  PI / 2 <= v3norm (mkV3 (3/2) (3/2) 0) <= PI - 6 / 100000000.
Proof.
  split; [split; [reflexivity | left; reflexivity]|].
  rewrite v3norm_diag by lra. pose proof PI_gt_3. pose proof PI_4.
  assert (S : sqrt 2 * sqrt 2 = 2) by (apply sqrt_sqrt; lra).
  assert (0 < sqrt 2) by (apply sqrt_lt_R0; lra).
  assert (1414 / 1000 < sqrt 2) by nra. assert (sqrt 2 < 1415 / 1000) by nra.
  lra.
Qed.
Theorem C03_ln_of_exp_refuted : exists w : V3,
  1 / 100000 <= v3norm w <= PI - 6 / 100000000 /\ so3_ln_vee (so3_of_vec w) <> w.
Proof.
  exists (mkV3 (3/2) (3/2) 0). destruct C03_witness as [A [B C]]. pose proof PI_gt_3.
  assert (H1 : 1 / 100000 <= v3norm (mkV3 (3/2) (3/2) 0) <= PI - 6 / 100000000) by lra.
  split; [exact H1|]. destruct (C03_ln_of_exp _ H1) as (_ & _ & Z). rewrite Z by auto.
  unfold v3zero. intros E. injection E. intros; lra.
Qed.
Print Assumptions C03_ln_of_exp_refuted.
Example C03_example : exists w : V3, 1 / 100000 <= v3norm w <= PI - 6 / 100000000 /\ PI / 2 <= v3norm w /\ ~ axis_diag w.
Proof.
  exists (mkV3 2 1 0). pose proof PI_gt_3. pose proof PI_4.
  assert (E : v3norm (mkV3 2 1 0) * v3norm (mkV3 2 1 0) = 5) by (rewrite v3norm_sq; lin_unfold; ring).
  pose proof (v3norm_nonneg (mkV3 2 1 0)).
  assert (22 / 10 < v3norm (mkV3 2 1 0)) by nra. assert (v3norm (mkV3 2 1 0) < 23 / 10) by nra.
  repeat split; try lra. unfold axis_diag; cbn. intros [_ [|]]; lra.
Qed.

(** ** C04 *)
Theorem C04_exp_of_ln : forall (A : M3) (theta : R),
  rotation A -> rotation_angle A theta ->
  theta = 0 \/ 1 / 100000 <= theta <= PI - 6 / 100000000 \/ theta = PI ->
  theta < PI / 2 \/
    (m3app A (mkV3 1 1 0) <> mkV3 1 1 0 /\ m3app A (mkV3 1 (-1) 0) <> mkV3 1 (-1) 0) ->
  so3_exp (fst (so3_ln A)) = A /\ snd (so3_ln A) = theta.
Proof. exact exp_ln. Qed.
Print Assumptions C04_exp_of_ln.
Theorem C04_exp_of_ln_small : forall (A : M3) (theta : R),
  rotation A -> rotation_angle A theta -> 0 < theta < 1 / 100000 ->
  m3_within (/ 10 ^ 24) (m3sub (so3_exp (fst (so3_ln A))) A) /\ snd (so3_ln A) = theta.
Proof.
  intros A theta HA [Hth Htr] Hs. pose proof PI_gt_3.
  assert (HI : A <> m3id).
  { intros ->. assert (cos theta = 1) by (unfold m3trace, m3id in Htr; cbn in Htr; lra).
    assert (cos theta < 1); [|lra]. rewrite <- cos_0. apply cos_decreasing_1; lra. }
  destruct (rotation_rodx_exists A HA HI) as (w & Hw & Hwt & Hr).
  assert (Eth : v3norm w = theta) by (apply cos_inj; lra).
  rewrite <- Eth. apply exp_ln_small; auto. lra.
Qed.
Print Assumptions C04_exp_of_ln_small.
(** The window below pi, where the code takes the angle to be pi: the result is off by at most
    3e-7 in every entry, unless R00 = R11 > R22 and R22 < -1 + 1e-8 (axis with |x| = |y| and nearly no z). *)
Theorem C04_exp_of_ln_near_pi : forall (A : M3) (theta : R),
  rotation A -> rotation_angle A theta -> PI - 6 / 100000000 < theta < PI ->
  ~ (a00 A = a11 A /\ a22 A < a00 A /\ a22 A < -1 + 1 / 100000000) ->
  m3_within (3 / 10000000) (m3sub (so3_exp (fst (so3_ln A))) A) /\ snd (so3_ln A) = PI.
Proof. exact exp_ln_near_pi. Qed.
Print Assumptions C04_exp_of_ln_near_pi.
Example C04_near_pi_example : exists A theta, rotation A /\ rotation_angle A theta /\
  PI - 6 / 100000000 < theta < PI /\ ~ (a00 A = a11 A /\ a22 A < a00 A /\ a22 A < -1 + 1 / 100000000).
Proof.
  exists (rodx (mkV3 0 0 (PI - 1 / 100000000))), (PI - 1 / 100000000). pose proof PI_gt_3.
  assert (N : v3norm (mkV3 0 0 (PI - 1 / 100000000)) = PI - 1 / 100000000).
  { unfold v3norm. lin_unfold. rewrite <- (sqrt_Rsqr (PI - 1 / 100000000)) at 3 by lra. f_equal. unfold Rsqr. ring. }
  split; [apply rodx_rotation; lra|]. split.
  { split; [lra|]. assert (X := rodx_tr (mkV3 0 0 (PI - 1 / 100000000)) ltac:(lra)). rewrite N in X. lra. }
  split; [lra|]. assert (c2p := rodx_c2_pos (mkV3 0 0 (PI - 1 / 100000000)) ltac:(lra)). unfold rodx.
  set (c2 := (1 - cos _) / _) in *. set (c1 := sin _ / _). clearbody c1 c2. intros (_ & L & _).
  unfold rod, hat3 in L. revert L. lin_unfold. assert (0 < c2 * ((PI - 1 / 100000000) * (PI - 1 / 100000000))) by (apply Rmult_lt_0_compat; nra). lra.
Qed.
Definition C04_expected : Prop := forall A, rotation A -> so3_exp (fst (so3_ln A)) = A.
Theorem C04_exp_of_ln_refuted : exists A,
  rotation A /\ rotation_angle A PI /\ so3_exp (fst (so3_ln A)) = m3id /\ A <> m3id.
Proof.
  exists half_turn_xy. split; [apply half_turn_xy_rotation|]. split; [apply half_turn_xy_angle|].
  split; [|apply half_turn_xy_not_id]. rewrite ln_half_turn_xy. cbn [fst].
  replace m3zero with (hat3 v3zero) by (unfold hat3, v3zero, m3zero; cbn; apply m3_eq; ring).
  apply so3_exp_zero.
Qed.
Print Assumptions C04_exp_of_ln_refuted.
Example C04_example : exists A theta, rotation A /\ rotation_angle A theta /\
  1 / 100000 <= theta <= PI - 6 / 100000000 /\ PI / 2 <= theta /\
  m3app A (mkV3 1 1 0) <> mkV3 1 1 0 /\ m3app A (mkV3 1 (-1) 0) <> mkV3 1 (-1) 0.
Proof.
  exists (mkM3 1 0 0 0 0 (-1) 0 1 0), (PI / 2). pose proof PI_gt_3. repeat split; try lra.
  - unfold orthogonal; lin_unfold; apply m3_eq; ring.
  - lin_unfold; ring.
  - rewrite cos_PI2. lin_unfold; ring.
  - lin_unfold; intros E; injection E; intros; lra.
  - lin_unfold; intros E; injection E; intros; lra.
Qed.

(** ** C05 *)
Theorem C05_so3_group : forall A B C,
  rotation A -> rotation B -> rotation C ->
  rotation m3id /\ rotation (so3_mul A B) /\ rotation (so3_inv A) /\
  so3_mul (so3_mul A B) C = so3_mul A (so3_mul B C) /\
  so3_mul m3id A = A /\ so3_mul A m3id = A /\
  so3_mul A (so3_inv A) = m3id /\ so3_mul (so3_inv A) A = m3id /\
  so3_inv (so3_mul A B) = so3_mul (so3_inv B) (so3_inv A) /\
  so3_inv (so3_inv A) = A.
Proof.
  intros A B C HA HB HC. unfold so3_mul, so3_inv.
  split; [apply rotation_id|]. split; [apply rotation_mul; auto|]. split; [apply rotation_tr; auto|].
  split; [apply m3mul_assoc|]. split; [apply m3mul_id_l|]. split; [apply m3mul_id_r|].
  split; [apply rotation_rinv; auto|]. split; [apply rotation_linv; auto|].
  split; [apply m3tr_mul | apply m3tr_tr].
Qed.
Print Assumptions C05_so3_group.
Theorem C05_any_exact_sequence : forall (ops : list so3_op) (A : M3),
  rotation A -> Forall so3_op_ok ops -> rotation (so3_run A ops).
Proof. intros ops A HA F. exact (so3_run_rotation ops F A HA). Qed.
Print Assumptions C05_any_exact_sequence.
(** Increments of any size: the drift is at most 1e-30 (relative squared length) per call. *)
Theorem C05_any_sequence_drift : forall (ops : list so3_op) (A : M3),
  rotation A -> Forall so3_op_rot ops -> INR (length ops) * / 10 ^ 30 < 1 ->
  near_rotation (INR (length ops) * / 10 ^ 30) (so3_run A ops).
Proof. intros ops A HA F H. exact (so3_run_near_rotation ops A HA F H). Qed.
Print Assumptions C05_any_sequence_drift.
(** Updating on the right by dw is updating on the left by adj dw, exactly. *)
Theorem C05_adjoint : forall A dw, rotation A ->
  hat3 (m3app (so3_adj A) dw) = so3_mul (so3_mul A (hat3 dw)) (so3_inv A) /\
  so3_update_rhs A dw = so3_mul A (so3_of_vec dw) /\ so3_update_rhs A dw = so3_update_lhs A (m3app (so3_adj A) dw).
Proof.
  intros A dw HA. split; [exact (hat3_rot A dw HA)|]. split; [reflexivity|]. unfold so3_update_rhs, so3_update_lhs, so3_adj. rewrite (so3_of_vec_rot A dw HA).
  rewrite !m3mul_assoc, (rotation_linv A HA), m3mul_id_r. reflexivity.
Qed.
Print Assumptions C05_adjoint.
Example C05_example : rotation half_turn_xy /\
  Forall so3_op_ok [So3Mul half_turn_xy; So3Inv; So3UpdLhs (mkV3 1 2 2); So3UpdRhs v3zero] /\
  Forall so3_op_rot [So3Mul half_turn_xy; So3UpdLhs (mkV3 (1 / 10000000) 0 0)].
Proof.
  pose proof half_turn_xy_rotation as H. split; [exact H|]. split.
  - constructor; [exact H|]. constructor; [exact I|]. constructor; [right; apply C01_example|].
    constructor; [left; reflexivity | constructor].
  - constructor; [exact H|]. constructor; [exact I | constructor].
Qed.

(** ** C06 (SO3 part) *)
Theorem C06_hat3_vee3 : forall (w a b : V3) (W : M3),
  vee3 (hat3 w) = w /\ skew (hat3 w) /\ (skew W -> hat3 (vee3 W) = W) /\
  m3app (hat3 a) b = v3cross a b.
Proof. intros. split; [apply vee3_hat3|]. split; [apply hat3_skew|]. split; [apply hat3_vee3 | apply hat3_cross]. Qed.
Print Assumptions C06_hat3_vee3.

(** ** C07 *)
Theorem C07_isSO3_accepts_rotations : forall A, rotation A -> isSO3 A = true.
Proof. exact isSO3_complete. Qed.
Print Assumptions C07_isSO3_accepts_rotations.
Theorem C07_isSO3_rejects_improper : forall A,
  (m3det A <= 0 -> isSO3 A = false) /\ (isSO3 A = true <-> Rabs (m3det A - 1) <= 1 / 1000000).
Proof. intros A; split; [exact (isSO3_improper A) | exact (isSO3_iff A)]. Qed.
Print Assumptions C07_isSO3_rejects_improper.
Definition C07_expected : Prop := forall A, isSO3 A = true ->
  m3_within (1 / 1000) (m3sub (m3mul (m3tr A) A) m3id).
Theorem C07_isSO3_refuted : exists A, isSO3 A = true /\ ~ orthogonal A /\
  v3norm (m3app A (mkV3 1 0 0)) = 1000.
Proof. exact isSO3_unsound. Qed.
Print Assumptions C07_isSO3_refuted.
Example C07_example : rotation half_turn_xy /\ m3det (mkM3 1 0 0 0 1 0 0 0 (-1)) <= 0.
Proof. split; [apply half_turn_xy_rotation | lin_unfold; lra]. Qed.

(** ** C08 *)
Theorem C08_quaternions : forall q : Quat, q <> mkQuat 0 0 0 0 ->
  rotation (quat_to_so3 q) /\
  forall k, k <> 0 -> quat_to_so3 (mkQuat (k * qx q) (k * qy q) (k * qz q) (k * qw q)) = quat_to_so3 q.
Proof. intros q H. split; [exact (quat_to_so3_rotation q H) | intros k Hk; exact (quat_to_so3_scal k q Hk H)]. Qed.
Print Assumptions C08_quaternions.
Theorem C08_roundtrip_rotation : forall A, rotation A ->
  quat_to_so3 (so3_to_quat A) = A /\
  qx (so3_to_quat A) * qx (so3_to_quat A) + qy (so3_to_quat A) * qy (so3_to_quat A) +
  qz (so3_to_quat A) * qz (so3_to_quat A) + qw (so3_to_quat A) * qw (so3_to_quat A) = 1.
Proof. exact quat_roundtrip. Qed.
Print Assumptions C08_roundtrip_rotation.
(** The other way round: a unit quaternion comes back up to its sign. *)
Theorem C08_roundtrip_quaternion : forall q,
  qx q * qx q + qy q * qy q + qz q * qz q + qw q * qw q = 1 ->
  so3_to_quat (quat_to_so3 q) = q \/
  so3_to_quat (quat_to_so3 q) = mkQuat (- qx q) (- qy q) (- qz q) (- qw q).
Proof.
  intros q H. destruct (so3_to_quat_pm q H) as (s & Hs & E). rewrite (quat_to_so3_unit q H), E.
  destruct q; unfold quat_scal; cbn. destruct Hs as [->| ->]; [left|right]; f_equal; ring.
Qed.
Print Assumptions C08_roundtrip_quaternion.
Theorem C08_quaternion_product : forall a b,
  qx a * qx a + qy a * qy a + qz a * qz a + qw a * qw a = 1 ->
  qx b * qx b + qy b * qy b + qz b * qz b + qw b * qw b = 1 ->
  quat_to_so3 (quat_mul a b) = so3_mul (quat_to_so3 a) (quat_to_so3 b).
Proof.
  intros a b Ha Hb. rewrite !quat_to_so3_unit; auto using unit_quat_mul. exact (quat_mul_rot a b Ha Hb).
Qed.
Print Assumptions C08_quaternion_product.
Example C08_example : mkQuat 1 2 3 4 <> mkQuat 0 0 0 0 /\ rotation half_turn_xy.
Proof. split; [intros E; injection E; intros; lra | apply half_turn_xy_rotation]. Qed.

(** ** C09 *)
Theorem C09_rpy : forall v : V3,
  rotation (rpy_to_so3 v) /\
  rpy_to_so3 v = m3mul (m3mul (rot_x (vx v)) (rot_y (vy v))) (rot_z (vz v)).
Proof. intros v; split; [exact (rpy_to_so3_rotation v) | exact (rpy_to_so3_eq v)]. Qed.
Print Assumptions C09_rpy.
Theorem C09_rpy_periodic : forall r p y (i j k : Z),
  rpy_to_so3 (mkV3 (r + 2 * IZR i * PI) (p + 2 * IZR j * PI) (y + 2 * IZR k * PI)) = rpy_to_so3 (mkV3 r p y).
Proof.
  intros. rewrite !rpy_to_so3_eq; cbn.
  assert (S : forall x n, sin (x + 2 * IZR n * PI) = sin x).
  { intros x n. destruct (Z_le_dec 0 n) as [H|H].
    - rewrite <- (Z2Nat.id n H), <- INR_IZR_INZ. apply sin_period.
    - set (m := Z.to_nat (- n)).
      assert (E : IZR n = - INR m) by (unfold m; rewrite INR_IZR_INZ, Z2Nat.id, opp_IZR by lia; ring).
      rewrite E. rewrite <- (sin_period (x + 2 * - INR m * PI) m). f_equal. ring. }
  assert (C : forall x n, cos (x + 2 * IZR n * PI) = cos x).
  { intros x n. destruct (Z_le_dec 0 n) as [H|H].
    - rewrite <- (Z2Nat.id n H), <- INR_IZR_INZ. apply cos_period.
    - set (m := Z.to_nat (- n)).
      assert (E : IZR n = - INR m) by (unfold m; rewrite INR_IZR_INZ, Z2Nat.id, opp_IZR by lia; ring).
      rewrite E. rewrite <- (cos_period (x + 2 * - INR m * PI) m). f_equal. ring. }
  unfold rot_x, rot_y, rot_z. rewrite !S, !C. reflexivity.
Qed.
Print Assumptions C09_rpy_periodic.

(** ** C10 *)
Theorem C10_so3_distance : forall A B C, rotation A -> rotation B -> rotation C ->
  0 <= so3_distance A B <= PI /\
  so3_distance A A = 0 /\
  so3_distance A B = so3_distance B A /\
  so3_distance (so3_mul A C) (so3_mul B C) = so3_distance A B.
Proof.
  intros A B C HA HB HC. split; [split; [apply so3_distance_nonneg | apply so3_distance_le_pi; auto]|].
  split; [apply so3_distance_refl; auto|]. split; [apply so3_distance_sym | apply so3_distance_right_inv; auto].
Qed.
Print Assumptions C10_so3_distance.
Theorem C10_distance_is_relative_angle : forall A B theta, rotation A -> rotation B ->
  rotation_angle (m3mul A (m3tr B)) theta ->
  theta = 0 \/ 1 / 100000 <= theta <= PI - 6 / 100000000 \/ theta = PI ->
  theta < PI / 2 \/
    (m3app (m3mul A (m3tr B)) (mkV3 1 1 0) <> mkV3 1 1 0 /\
     m3app (m3mul A (m3tr B)) (mkV3 1 (-1) 0) <> mkV3 1 (-1) 0) ->
  so3_distance A B = theta.
Proof.
  intros A B theta HA HB. apply ln_vee_norm_angle. apply rotation_mul; auto. apply rotation_tr; auto.
Qed.
Print Assumptions C10_distance_is_relative_angle.
Theorem C10_distance_zero : forall A B, rotation A -> rotation B -> so3_distance A B = 0 ->
  A = B \/ m3app (m3mul A (m3tr B)) (mkV3 1 1 0) = mkV3 1 1 0 \/
           m3app (m3mul A (m3tr B)) (mkV3 1 (-1) 0) = mkV3 1 (-1) 0.
Proof. exact so3_distance_zero. Qed.
Print Assumptions C10_distance_zero.
Definition C10_expected : Prop := forall A B, rotation A -> rotation B -> so3_distance A B = 0 -> A = B.
Theorem C10_distance_zero_refuted : exists A B,
  rotation A /\ rotation B /\ so3_distance A B = 0 /\ A <> B.
Proof.
  exists half_turn_xy, m3id. split; [apply half_turn_xy_rotation|]. split; [apply rotation_id|].
  split; [|apply half_turn_xy_not_id]. unfold so3_distance, so3_mul, so3_inv. rewrite m3tr_id, m3mul_id_r.
  unfold so3_ln_vee. rewrite ln_half_turn_xy. cbn [fst].
  replace (vee3 m3zero) with v3zero by (unfold vee3, v3zero; cbn; apply v3_eq; ring). apply v3norm_zero'.
Qed.
Print Assumptions C10_distance_zero_refuted.
(** Against the true relative angle, for all angles: never more than 6e-8 above
    it; and, except for obtuse rotations about (1,+-1,0), never 1e-26 below. *)
Theorem C10_distance_bounds : forall A B theta, rotation A -> rotation B -> rotation_angle (m3mul A (m3tr B)) theta ->
  so3_distance A B <= theta + 6 / 100000000 /\
  (theta < PI / 2 \/
     (m3app (m3mul A (m3tr B)) (mkV3 1 1 0) <> mkV3 1 1 0 /\
      m3app (m3mul A (m3tr B)) (mkV3 1 (-1) 0) <> mkV3 1 (-1) 0) ->
   theta - / 10 ^ 26 <= so3_distance A B).
Proof.
  intros A B theta HA HB RA. assert (RM : rotation (m3mul A (m3tr B))) by (apply rotation_mul; auto; apply rotation_tr; auto).
  split; [apply ln_norm_upper; auto | intros G; apply ln_norm_lower; auto].
Qed.
Print Assumptions C10_distance_bounds.
(** The triangle inequality, up to 7e-8, unless one of the two steps is an obtuse
    rotation about (1,+-1,0). *)
Theorem C10_triangle : forall A B C, rotation A -> rotation B -> rotation C ->
  (forall X, X = m3mul A (m3tr B) \/ X = m3mul B (m3tr C) ->
     (forall theta, rotation_angle X theta -> theta < PI / 2) \/ (m3app X (mkV3 1 1 0) <> mkV3 1 1 0 /\ m3app X (mkV3 1 (-1) 0) <> mkV3 1 (-1) 0)) ->
  so3_distance A C <= so3_distance A B + so3_distance B C + 7 / 100000000.
Proof. intros A B C HA HB HC W. apply distance_triangle; auto; apply W; auto. Qed.
Print Assumptions C10_triangle.
Theorem C10_triangle_refuted : exists A B C, rotation A /\ rotation B /\ rotation C /\ so3_distance A B + so3_distance B C + 1 < so3_distance A C.
Proof.
  set (Z := mkM3 0 (-1) 0 1 0 0 0 0 1). assert (HZ : rotation Z) by (split; [unfold orthogonal, Z; lin_unfold; apply m3_eq; ring | unfold Z; lin_unfold; ring]).
  exists half_turn_xy, m3id, Z. split; [apply half_turn_xy_rotation|]. split; [apply rotation_id|]. split; auto.
  assert (E0 : so3_distance half_turn_xy m3id = 0).
  { unfold so3_distance, so3_mul, so3_inv. rewrite m3tr_id, m3mul_id_r. unfold so3_ln_vee. rewrite ln_half_turn_xy. cbn [fst].
    replace (vee3 m3zero) with v3zero by (unfold vee3, v3zero; cbn; apply v3_eq; ring). apply v3norm_zero'. }
  pose proof PI_gt_3 as P3. pose proof PI_4 as P4.
  destruct (C10_distance_bounds m3id Z (PI / 2) rotation_id HZ) as [U _]. { split; [lra|]. rewrite cos_PI2. unfold Z. lin_unfold. ring. }
  destruct (C10_distance_bounds half_turn_xy Z PI half_turn_xy_rotation HZ) as [_ L]. { split; [lra|]. rewrite cos_PI. unfold half_turn_xy, Z. lin_unfold. ring. }
  assert (L' : PI - / 10 ^ 26 <= so3_distance half_turn_xy Z).
  { apply L. right. split; intros E; apply (f_equal vx) in E as E1; apply (f_equal vy) in E as E2; revert E1 E2; unfold half_turn_xy, Z; lin_unfold; cbn; lra. }
  rewrite E0. assert (/ 10 ^ 26 <= 1 / 1000) by (simpl; lra). lra.
Qed.
Print Assumptions C10_triangle_refuted.
Example C10_triangle_ex : let Z := mkM3 0 (-1) 0 1 0 0 0 0 1 in forall X, X = m3mul Z (m3tr m3id) \/ X = m3mul m3id (m3tr (m3mul Z Z)) ->
  (forall theta, rotation_angle X theta -> theta < PI / 2) \/ (m3app X (mkV3 1 1 0) <> mkV3 1 1 0 /\ m3app X (mkV3 1 (-1) 0) <> mkV3 1 (-1) 0).
Proof.
  intros Z X H. right. destruct H as [-> | ->]; split; intros E; apply (f_equal vx) in E as E1; apply (f_equal vy) in E as E2; revert E1 E2; unfold Z; lin_unfold; cbn; lra.
Qed.
Example C10_example : exists A B, rotation A /\ rotation B /\ rotation_angle (m3mul A (m3tr B)) (PI / 2).
Proof.
  exists (mkM3 1 0 0 0 0 (-1) 0 1 0), m3id. pose proof PI_gt_3. repeat split; try lra.
  - unfold orthogonal; lin_unfold; apply m3_eq; ring.
  - lin_unfold; ring.
  - apply rotation_id.
  - apply m3det_id.
  - rewrite cos_PI2. lin_unfold; ring.
Qed.
