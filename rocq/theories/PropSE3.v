(** Property theorems C11-C18 and the SE3 part of C06 (class SE3).
    Only statements closed by lemmas, assumptions and non-vacuity examples. *)
Require Import Reals Lra List.
From Verif Require Import Lin LinFacts SO3 SO3Ops SE3 SE3Ops SpecGeom SO3Exp SO3ExpTrue SO3Ln SO3Misc SO3Near SE3NearPi SO3Dist
  TrigBounds SE3Alg SE3Exp SE3Ln PropSO3.
Import ListNotations.
Local Open Scope R_scope.

(** ** C06 (SE3 part): first three components rotation, last three translation *)
Theorem C06_hat6_vee6 : forall (xi : V6) (X : M4) (p : V3),
  vee6 (hat6 xi) = xi /\ is_se3_alg (hat6 xi) /\ (is_se3_alg X -> hat6 (vee6 X) = X) /\
  m4app (hat6 xi) (mkV4 p 1) = mkV4 (v3add (v3cross (v6w xi) p) (v6v xi)) 0.
Proof.
  intros. split; [apply vee6_hat6|]. split; [apply hat6_alg|]. split; [apply hat6_vee6|].
  rewrite hat6_block. unfold m4app; cbn [mR mt mb mc v4h v4l]. rewrite hat3_cross. apply v4_eq.
  - generalize (v3cross (v6w xi) p), (v6v xi). lin.
  - lin_unfold; ring.
Qed.
Print Assumptions C06_hat6_vee6.
Example C06_example : is_se3_alg (hat6 (mkV6 (mkV3 1 2 3) (mkV3 4 5 6))) /\ skew (hat3 (mkV3 1 2 3)).
Proof. split; [apply hat6_alg | apply hat3_skew]. Qed.

(** ** C11 *)
Theorem C11_se3_group : forall A B C, rigid A -> rigid B -> rigid C ->
  rigid m4id /\ rigid (se3_mul A B) /\ rigid (se3_inv A) /\
  se3_mul (se3_mul A B) C = se3_mul A (se3_mul B C) /\
  se3_mul m4id A = A /\ se3_mul A m4id = A /\
  se3_mul A (se3_inv A) = m4id /\ se3_mul (se3_inv A) A = m4id /\
  se3_inv (se3_mul A B) = se3_mul (se3_inv B) (se3_inv A) /\
  se3_inv (se3_inv A) = A.
Proof.
  intros A B C HA HB HC. unfold se3_mul.
  split; [apply rigid_id|]. split; [apply rigid_mul; auto|]. split; [apply rigid_inv; auto|].
  split; [apply m4mul_assoc|]. split; [apply m4mul_id_l|]. split; [apply m4mul_id_r|].
  split; [apply rigid_rinv; auto|]. split; [apply rigid_linv; auto|].
  split; [apply se3_inv_mul; auto | apply se3_inv_inv; auto].
Qed.
Print Assumptions C11_se3_group.
Theorem C11_any_exact_sequence : forall (ops : list se3_op) (T : M4),
  rigid T -> Forall se3_op_ok ops -> rigid (se3_run T ops).
Proof. intros ops T HT F. exact (se3_run_rigid ops F T HT). Qed.
Print Assumptions C11_any_exact_sequence.
Theorem C11_any_sequence_drift : forall (ops : list se3_op) (T : M4),
  rigid T -> Forall se3_op_rigid ops -> INR (length ops) * / 10 ^ 30 < 1 ->
  near_rigid (INR (length ops) * / 10 ^ 30) (se3_run T ops).
Proof. intros ops T HT F H. exact (se3_run_near_rigid ops T HT F H). Qed.
Print Assumptions C11_any_sequence_drift.
(** Applied to points: update_lhs moves them after the pose, update_rhs before. *)
Theorem C11_update_sides : forall T dxi p, rigid T ->
  se3_transform (se3_update_lhs T dxi) p = se3_transform (se3_of_vec dxi) (se3_transform T p) /\
  se3_transform (se3_update_rhs T dxi) p = se3_transform T (se3_transform (se3_of_vec dxi) p).
Proof.
  intros T dxi p HT. assert (G : forall A B, mb B = v3zero -> mc B = 1 -> se3_transform (m4mul A B) p = se3_transform A (se3_transform B p)).
  { intros [RA tA bA cA] [RB tB bB cB] E1 E2. cbn in E1, E2. subst. unfold se3_transform, m4mul; cbn [mR mt]. lin. }
  destruct HT as (_ & E1 & E2). split; apply G; auto.
Qed.
Print Assumptions C11_update_sides.
Definition pose_ex : M4 := se3_of_Rt (mkM3 1 0 0 0 0 (-1) 0 1 0) (mkV3 1 2 3).
Lemma pose_ex_rigid : rigid pose_ex.
Proof.
  apply rigid_of_Rt. split.
  - unfold orthogonal; lin_unfold; apply m3_eq; ring.
  - lin_unfold; ring.
Qed.
Lemma pose_ex_angle : rotation_angle (mR pose_ex) (PI / 2).
Proof. pose proof PI_gt_3. split; [lra|]. rewrite cos_PI2. lin_unfold. unfold m3trace; cbn. ring. Qed.
Lemma pose_ex_good : m3app (mR pose_ex) (mkV3 1 1 0) <> mkV3 1 1 0 /\
  m3app (mR pose_ex) (mkV3 1 (-1) 0) <> mkV3 1 (-1) 0.
Proof. split; unfold pose_ex; lin_unfold; cbn; intros E; injection E; intros; lra. Qed.
Example C11_example : rigid pose_ex /\
  Forall se3_op_ok [Se3Mul pose_ex; Se3Inv; Se3UpdLhs (mkV6 (mkV3 1 2 2) (mkV3 4 5 6)); Se3UpdRhs v6zero] /\
  Forall se3_op_rigid [Se3MulLeft pose_ex; Se3UpdRhs (mkV6 (mkV3 (1 / 10000000) 0 0) v3zero)].
Proof.
  pose proof pose_ex_rigid as H. split; [exact H|]. split.
  - constructor; [exact H|]. constructor; [exact I|]. constructor; [right; apply C01_example|].
    constructor; [left; reflexivity | constructor].
  - constructor; [exact H|]. constructor; [exact I | constructor].
Qed.

(** ** C12 *)
Theorem C12_transform_action : forall A B (p q : V3), rigid A -> rigid B ->
  v3norm (v3sub (se3_transform A p) (se3_transform A q)) = v3norm (v3sub p q) /\
  se3_transform (se3_mul A B) p = se3_transform A (se3_transform B p) /\
  se3_transform m4id p = p /\
  se3_transform (se3_inv A) (se3_transform A p) = p /\
  se3_transform A (se3_transform (se3_inv A) p) = p /\
  m4app A (mkV4 p 1) = mkV4 (se3_transform A p) 1.
Proof.
  intros A B p q HA HB. split; [apply transform_dist; auto|]. split; [apply transform_mul; auto|].
  split; [apply transform_id|]. split; [apply transform_inv_l; auto|].
  split; [apply transform_inv_r; auto | apply transform_hom; auto].
Qed.
Print Assumptions C12_transform_action.
Theorem C12_transform_array : forall T (P : list V3),
  length (se3_transform_array T P) = length P /\
  forall i p, nth_error P i = Some p -> nth_error (se3_transform_array T P) i = Some (se3_transform T p).
Proof.
  intros T P. rewrite transform_array_map. split; [apply map_length|].
  intros i p H. exact (map_nth_error (se3_transform T) i P H).
Qed.
Print Assumptions C12_transform_array.
Example C12_example : rigid pose_ex /\ rigid m4id /\
  nth_error [mkV3 1 0 0; mkV3 0 1 0] 1 = Some (mkV3 0 1 0).
Proof. split; [apply pose_ex_rigid|]. split; [apply rigid_id | reflexivity]. Qed.

(** ** C13 *)
Theorem C13_se3_exp_rigid : forall xi : V6,
  (v6w xi = v3zero \/ 1 / 100000 <= v3norm (v6w xi) -> rigid (se3_of_vec xi)) /\
  near_rigid (/ 10 ^ 30) (se3_of_vec xi).
Proof.
  intros xi. split; [exact (se3_exp_rigid xi)|]. rewrite se3_of_vec_block.
  split; [exact (near_rotation_exp (v6w xi)) | split; reflexivity].
Qed.
Print Assumptions C13_se3_exp_rigid.
(** Exactly the 4x4 matrix exponential for |w| > 1e-3 or w = 0; within 1e-26
    (rotation entries) and 2e-18 |v| (translation) of it for every xi. *)
Theorem C13_se3_exp_is_matrix_exponential : forall xi : V6,
  (v6w xi = v3zero \/ 1 / 1000 < v3norm (v6w xi) -> matrix_exp4 (hat6 xi) (se3_of_vec xi)) /\
  exists E, matrix_exp4 (hat6 xi) E /\
    m3_within (/ 10 ^ 26) (m3sub (mR (se3_of_vec xi)) (mR E)) /\
    v3norm (v3sub (mt (se3_of_vec xi)) (mt E)) <= 2 / 10 ^ 18 * v3norm (v6v xi) /\
    mb (se3_of_vec xi) = mb E /\ mc (se3_of_vec xi) = mc E.
Proof. intros xi. split; [exact (se3_exp_is_exp xi) | exact (se3_exp_near_exp xi)]. Qed.
Print Assumptions C13_se3_exp_is_matrix_exponential.
Theorem C13_matrix_exponential_unique : forall X M N,
  is_se3_alg X -> matrix_exp4 X M -> matrix_exp4 X N -> M = N.
Proof. exact matrix_exp4_unique. Qed.
Print Assumptions C13_matrix_exponential_unique.
Example C13_example : 1 / 1000 < v3norm (v6w (mkV6 (mkV3 1 2 2) (mkV3 4 5 6))) /\
  is_se3_alg (hat6 (mkV6 (mkV3 1 2 2) (mkV3 4 5 6))).
Proof.
  split; [|apply hat6_alg]. cbn [v6w]. replace (v3norm (mkV3 1 2 2)) with 3; [lra|]. unfold v3norm.
  replace (v3sqn (mkV3 1 2 2)) with (3 * 3) by (lin_unfold; ring). symmetry; apply sqrt_square; lra.
Qed.

(** ** C14 *)
Theorem C14_ln_of_exp : forall w v : V3,
  5 / 1000 < v3norm w <= PI - 6 / 100000000 ->
  (~ (axis_diag w /\ PI / 2 <= v3norm w) -> se3_ln_vee (se3_of_vec (mkV6 w v)) = mkV6 w v) /\
  (axis_diag w /\ PI / 2 <= v3norm w -> v6w (se3_ln_vee (se3_of_vec (mkV6 w v))) = v3zero).
Proof.
  intros w v H. rewrite axis_diag_bad. split.
  - intros N. exact (se3_ln_exp w v H N).
  - intros [B A]. rewrite (se3_ln_exp_bad w v B) by lra. reflexivity.
Qed.
Print Assumptions C14_ln_of_exp.
Theorem C14_ln_of_exp_zero : forall v, se3_ln_vee (se3_of_vec (mkV6 v3zero v)) = mkV6 v3zero v.
Proof. exact se3_ln_exp_zero. Qed.
Print Assumptions C14_ln_of_exp_zero.
Theorem C14_ln_of_exp_small : forall w v, 0 < v3norm w <= 5 / 1000 ->
  let xi' := se3_ln_vee (se3_of_vec (mkV6 w v)) in
  v3_within (/ 10 ^ 26) (v3sub (v6w xi') w) /\
  (1 / 100000 <= v3norm w -> v6w xi' = w) /\
  v3norm (v3sub (v6v xi') v) <= / 10 ^ 13 * v3norm v.
Proof. exact se3_ln_exp_small. Qed.
Print Assumptions C14_ln_of_exp_small.
Theorem C14_exp_of_ln : forall (T : M4) (theta : R), rigid T -> rotation_angle (mR T) theta ->
  theta = 0 \/ 5 / 1000 < theta <= PI - 6 / 100000000 \/ theta = PI ->
  theta < PI / 2 \/
    (m3app (mR T) (mkV3 1 1 0) <> mkV3 1 1 0 /\ m3app (mR T) (mkV3 1 (-1) 0) <> mkV3 1 (-1) 0) ->
  se3_exp (se3_ln T) = T.
Proof. exact regenerate_exact. Qed.
Print Assumptions C14_exp_of_ln.
Theorem C14_exp_of_ln_small : forall (T : M4) (theta : R), rigid T -> rotation_angle (mR T) theta ->
  0 < theta <= 5 / 1000 ->
  m3_within (/ 10 ^ 24) (m3sub (mR (se3_exp (se3_ln T))) (mR T)) /\
  (1 / 100000 <= theta -> mR (se3_exp (se3_ln T)) = mR T) /\
  v3norm (v3sub (mt (se3_exp (se3_ln T))) (mt T)) <= / 10 ^ 13 * v3norm (mt T) /\
  mb (se3_exp (se3_ln T)) = v3zero /\ mc (se3_exp (se3_ln T)) = 1.
Proof. exact regenerate_small. Qed.
Print Assumptions C14_exp_of_ln_small.
(** The window below pi, where the rotation is taken to be a half turn. *)
Theorem C14_ln_of_exp_near_pi : forall w v, PI - 6 / 100000000 < v3norm w < PI ->
  ~ (vx w * vx w = vy w * vy w /\ vz w * vz w < vx w * vx w /\ Rabs (vz w) < 1 / 10000) ->
  let xi' := se3_ln_vee (se3_of_vec (mkV6 w v)) in
  v3norm (v3sub (v6w xi') w) <= 7 / 100000000 /\ v3norm (v3sub (v6v xi') v) <= 1 / 1000000 * v3norm v.
Proof. exact se3_ln_exp_near_pi. Qed.
Print Assumptions C14_ln_of_exp_near_pi.
Theorem C14_exp_of_ln_near_pi : forall (T : M4) (theta : R), rigid T -> rotation_angle (mR T) theta ->
  PI - 6 / 100000000 < theta < PI -> ~ (a00 (mR T) = a11 (mR T) /\ a22 (mR T) < a00 (mR T) /\ a22 (mR T) < -1 + 1 / 100000000) ->
  rigid (se3_exp (se3_ln T)) /\ rotation_angle (mR (se3_exp (se3_ln T))) PI /\
  m3_within (3 / 10000000) (m3sub (mR (se3_exp (se3_ln T))) (mR T)) /\ mt (se3_exp (se3_ln T)) = mt T.
Proof. exact regenerate_near_pi. Qed.
Print Assumptions C14_exp_of_ln_near_pi.
Example C14_near_pi_example : (exists w, PI - 6 / 100000000 < v3norm w < PI /\
    ~ (vx w * vx w = vy w * vy w /\ vz w * vz w < vx w * vx w /\ Rabs (vz w) < 1 / 10000)) /\
  exists T theta, rigid T /\ rotation_angle (mR T) theta /\ PI - 6 / 100000000 < theta < PI /\
    ~ (a00 (mR T) = a11 (mR T) /\ a22 (mR T) < a00 (mR T) /\ a22 (mR T) < -1 + 1 / 100000000).
Proof.
  split.
  - exists (mkV3 0 0 (PI - 1 / 100000000)). pose proof PI_gt_3. cbn [vx vy vz]. split; [|intros (_ & L & _); nra].
    unfold v3norm. lin_unfold.
    replace (0 * 0 + 0 * 0 + (PI - 1 / 100000000) * (PI - 1 / 100000000)) with (Rsqr (PI - 1 / 100000000)) by (unfold Rsqr; ring).
    rewrite sqrt_Rsqr by lra. lra.
  - destruct C04_near_pi_example as (A & th & H1 & H2 & H3 & H4). exists (mkM4 A (mkV3 1 2 3) v3zero 1), th. repeat split; auto; apply H1 || apply H2 || lra.
Qed.
Definition C14_expected : Prop := forall w v, 5 / 1000 < v3norm w <= PI - 6 / 100000000 ->
  se3_ln_vee (se3_of_vec (mkV6 w v)) = mkV6 w v.
Theorem C14_ln_of_exp_refuted : exists w v, 5 / 1000 < v3norm w <= PI - 6 / 100000000 /\
  se3_ln_vee (se3_of_vec (mkV6 w v)) <> mkV6 w v.
Proof.
  exists (mkV3 (3/2) (3/2) 0), v3zero. destruct C03_witness as [A [B C]]. pose proof PI_gt_3.
  assert (H1 : 5 / 1000 < v3norm (mkV3 (3/2) (3/2) 0) <= PI - 6 / 100000000) by lra.
  split; [exact H1|]. destruct (C14_ln_of_exp _ v3zero H1) as (_ & Z). intros E.
  rewrite E in Z. cbn [v6w] in Z. specialize (Z (conj A B)). unfold v3zero in Z. injection Z; intros; lra.
Qed.
Print Assumptions C14_ln_of_exp_refuted.
Example C14_example : (exists w, 5 / 1000 < v3norm w <= PI - 6 / 100000000 /\ PI / 2 <= v3norm w /\ ~ axis_diag w) /\
  rigid pose_ex /\ rotation_angle (mR pose_ex) (PI / 2) /\
  m3app (mR pose_ex) (mkV3 1 1 0) <> mkV3 1 1 0 /\ m3app (mR pose_ex) (mkV3 1 (-1) 0) <> mkV3 1 (-1) 0.
Proof.
  split.
  - destruct C03_example as (w & H & A & N). exists w. pose proof PI_gt_3. split; [lra|]. split; auto.
  - split; [apply pose_ex_rigid|]. split; [apply pose_ex_angle | apply pose_ex_good].
Qed.

(** ** C15 *)
Theorem C15_adjoint : forall A B xi, rigid A -> rigid B ->
  se3_adj (se3_mul A B) = m6mul (se3_adj A) (se3_adj B) /\
  m6mul (se3_adj (se3_inv A)) (se3_adj A) = m6id /\ m6mul (se3_adj A) (se3_adj (se3_inv A)) = m6id /\
  hat6 (m6app (se3_adj A) xi) = se3_mul (se3_mul A (hat6 xi)) (se3_inv A).
Proof.
  intros A B xi HA HB. split; [apply adj_mul; auto|]. destruct (adj_inv A HA) as [E1 E2].
  split; [exact E1|]. split; [exact E2 | apply adj_conj; auto].
Qed.
Print Assumptions C15_adjoint.
Theorem C15_adjoint_exp : forall T xi, rigid T -> v6w xi = v3zero \/ 1 / 1000 < v3norm (v6w xi) ->
  se3_update_rhs T xi = se3_update_lhs T (m6app (se3_adj T) xi).
Proof. exact adj_exp_exact. Qed.
Print Assumptions C15_adjoint_exp.
(** Every xi: the rotation is exact, the translation within 1e-17 |t|. *)
Theorem C15_adjoint_exp_all : forall T xi, rigid T ->
  mR (se3_update_rhs T xi) = mR (se3_update_lhs T (m6app (se3_adj T) xi)) /\
  v3norm (v3sub (mt (se3_update_lhs T (m6app (se3_adj T) xi))) (mt (se3_update_rhs T xi))) <=
    / 10 ^ 17 * v3norm (mt T).
Proof. exact adj_exp_near. Qed.
Print Assumptions C15_adjoint_exp_all.
Example C15_example : rigid pose_ex /\ 1 / 1000 < v3norm (v6w (mkV6 (mkV3 1 2 2) (mkV3 4 5 6))).
Proof. split; [apply pose_ex_rigid | apply C13_example]. Qed.

(** ** C16 *)
Theorem C16_isSE3_accepts_rigid : forall T, rigid T -> isSE3 T = true.
Proof. exact isSE3_complete. Qed.
Print Assumptions C16_isSE3_accepts_rigid.
Theorem C16_isSE3_exact_test : forall T, isSE3 T = true <->
  Rabs (m3det (mR T) - 1) <= 1 / 1000000 /\
  vx (mb T) + vy (mb T) + vz (mb T) + (mc T - 1) <= 1 / 1000000.
Proof. exact isSE3_iff. Qed.
Print Assumptions C16_isSE3_exact_test.
Definition C16_expected : Prop := forall T, isSE3 T = true -> rotation (mR T) ->
  v3_within (1 / 1000) (mb T) /\ Rabs (mc T - 1) <= 1 / 1000.
Theorem C16_isSE3_refuted : exists T, isSE3 T = true /\ rotation (mR T) /\ mb T <> v3zero /\ mc T = 1 /\ vx (mb T) = -1000.
Proof. exact isSE3_unsound. Qed.
Print Assumptions C16_isSE3_refuted.
Example C16_example : rigid pose_ex. Proof. exact pose_ex_rigid. Qed.

(** ** C17 *)
Theorem C17_regenerate : forall (T : M4) (theta : R), rigid T -> rotation_angle (mR T) theta ->
  theta = 0 \/ 5 / 1000 < theta <= PI - 6 / 100000000 \/ theta = PI ->
  theta < PI / 2 \/
    (m3app (mR T) (mkV3 1 1 0) <> mkV3 1 1 0 /\ m3app (mR T) (mkV3 1 (-1) 0) <> mkV3 1 (-1) 0) ->
  se3_regenerate T = T.
Proof. exact regenerate_exact. Qed.
Print Assumptions C17_regenerate.
Theorem C17_regenerate_small : forall (T : M4) (theta : R), rigid T -> rotation_angle (mR T) theta ->
  0 < theta <= 5 / 1000 ->
  m3_within (/ 10 ^ 24) (m3sub (mR (se3_regenerate T)) (mR T)) /\
  v3norm (v3sub (mt (se3_regenerate T)) (mt T)) <= / 10 ^ 13 * v3norm (mt T).
Proof.
  intros T theta HT Ha Hr. destruct (regenerate_small T theta HT Ha Hr) as (A & _ & B & _). split; [exact A | exact B].
Qed.
Print Assumptions C17_regenerate_small.
Definition C17_expected : Prop := forall T, rigid T -> se3_regenerate T = T.
Theorem C17_regenerate_refuted : exists T, rigid T /\ rotation_angle (mR T) PI /\
  mR (se3_regenerate T) = m3id /\ mt (se3_regenerate T) = mt T /\ mR T <> m3id.
Proof.
  exists (se3_of_Rt half_turn_xy (mkV3 1 2 3)). rewrite regenerate_half_turn. cbn [mR mt se3_of_Rt].
  split; [apply rigid_of_Rt, half_turn_xy_rotation|]. split; [apply half_turn_xy_angle|].
  split; [reflexivity|]. split; [reflexivity | apply half_turn_xy_not_id].
Qed.
Print Assumptions C17_regenerate_refuted.
Example C17_example : rigid pose_ex /\ rotation_angle (mR pose_ex) (PI / 2) /\
  m3app (mR pose_ex) (mkV3 1 1 0) <> mkV3 1 1 0 /\ m3app (mR pose_ex) (mkV3 1 (-1) 0) <> mkV3 1 (-1) 0.
Proof. split; [apply pose_ex_rigid|]. split; [apply pose_ex_angle | apply pose_ex_good]. Qed.

(** ** C18 *)
Theorem C18_distances : forall A B C, rigid A -> rigid B -> rigid C ->
  0 <= se3_distance A B /\ 0 <= se3_distance_rotation A B <= PI /\ 0 <= se3_distance_trans A B /\
  se3_distance A A = 0 /\ se3_distance_rotation A A = 0 /\ se3_distance_trans A A = 0 /\
  se3_distance_rotation A B = se3_distance_rotation B A /\
  se3_distance_trans A B = se3_distance_trans B A /\
  se3_distance_trans A C <= se3_distance_trans A B + se3_distance_trans B C /\
  se3_distance_rotation A B <= se3_distance A B /\
  se3_distance (se3_mul A C) (se3_mul B C) = se3_distance A B.
Proof.
  intros A B C HA HB HC.
  split; [apply v6norm_nonneg|].
  split; [split; [apply so3_distance_nonneg | apply (so3_distance_le_pi (mR A) (mR B) (proj1 HA) (proj1 HB))]|].
  split; [apply v3norm_nonneg|]. split; [apply se3_distance_refl; auto|].
  split; [exact (so3_distance_refl (mR A) (proj1 HA))|].
  split. { unfold se3_distance_trans. replace (v3sub (mt A) (mt A)) with v3zero by (generalize (mt A); lin). apply v3norm_zero'. }
  split; [exact (so3_distance_sym (mR A) (mR B))|]. split; [apply dist_trans_sym|].
  split; [apply dist_trans_triangle|]. split; [apply se3_distance_ge; auto | apply se3_distance_right_inv; auto].
Qed.
Print Assumptions C18_distances.
(** distance_rotation: the triangle inequality up to 7e-8, unless one of the two
    steps is an obtuse rotation about (1,+-1,0). *)
Theorem C18_rotation_triangle : forall A B C, rigid A -> rigid B -> rigid C ->
  (forall X, X = m3mul (mR A) (m3tr (mR B)) \/ X = m3mul (mR B) (m3tr (mR C)) ->
     (forall theta, rotation_angle X theta -> theta < PI / 2) \/ (m3app X (mkV3 1 1 0) <> mkV3 1 1 0 /\ m3app X (mkV3 1 (-1) 0) <> mkV3 1 (-1) 0)) ->
  se3_distance_rotation A C <= se3_distance_rotation A B + se3_distance_rotation B C + 7 / 100000000.
Proof. intros A B C HA HB HC. apply C10_triangle; [apply HA | apply HB | apply HC]. Qed.
Print Assumptions C18_rotation_triangle.
Theorem C18_distance_symmetric : forall A B theta, rigid A -> rigid B ->
  rotation_angle (m3mul (mR A) (m3tr (mR B))) theta -> theta <= PI - 6 / 100000000 \/ theta = PI ->
  se3_distance A B = se3_distance B A.
Proof. exact se3_distance_sym. Qed.
Print Assumptions C18_distance_symmetric.
Theorem C18_distance_zero : forall A B, rigid A -> rigid B -> se3_distance A B = 0 ->
  A = B \/ m3app (m3mul (mR A) (m3tr (mR B))) (mkV3 1 1 0) = mkV3 1 1 0 \/
           m3app (m3mul (mR A) (m3tr (mR B))) (mkV3 1 (-1) 0) = mkV3 1 (-1) 0.
Proof. exact se3_distance_zero. Qed.
Print Assumptions C18_distance_zero.
Theorem C18_distance_zero_refuted : exists A B, rigid A /\ rigid B /\ A <> B /\ se3_distance A B = 0.
Proof.
  exists (se3_of_Rt half_turn_xy v3zero), m4id.
  split; [apply rigid_of_Rt, half_turn_xy_rotation|]. split; [apply rigid_id|].
  split. { intros E. injection E; intros. lra. }
  unfold se3_distance, se3_mul. replace (se3_inv m4id) with m4id.
  2:{ change m4id with (se3_of_Rt m3id v3zero). rewrite inv_of_Rt, m3tr_id, m3app_id. f_equal. lin. }
  rewrite m4mul_id_r, (se3_ln_vee_block _ v3zero PI).
  - cbn [mt se3_of_Rt]. rewrite rod_zero, m3app_id. unfold v6norm.
    replace (v6dot (mkV6 v3zero v3zero) (mkV6 v3zero v3zero)) with 0 by (lin_unfold; ring). apply sqrt_0.
  - cbn [mR se3_of_Rt]. rewrite ln_half_turn_xy. f_equal. unfold hat3; lin.
Qed.
Print Assumptions C18_distance_zero_refuted.
Example C18_example : rigid pose_ex /\ rigid m4id /\ rotation_angle (m3mul (mR pose_ex) (m3tr (mR m4id))) (PI / 2).
Proof.
  split; [apply pose_ex_rigid|]. split; [apply rigid_id|]. cbn [mR m4id]. rewrite m3tr_id, m3mul_id_r. apply pose_ex_angle.
Qed.
