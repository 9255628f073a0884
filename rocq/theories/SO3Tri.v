(** Proofs: the angle between rotations and the triangle inequality. *)
Require Import Reals Lra Psatz Bool List.
From Verif Require Import Lin LinFacts SO3 SpecGeom SO3Exp SO3ExpTrue SO3Ln SO3Misc SO3Near SO3Dist TrigBounds.
Local Open Scope R_scope.

(** ** the angle of a product *)
Lemma rotation_hom A : rotation A -> exists q, unit_quat q /\ quat_hom q = A.
Proof.
  intros HA. destruct (quat_roundtrip A HA) as [E U]. exists (so3_to_quat A). assert (U' : unit_quat (so3_to_quat A)) by exact U. split; auto.
  rewrite <- quat_hom_unit by auto. rewrite <- quat_to_so3_unit by auto. exact E.
Qed.
Lemma half_angle A q t : unit_quat q -> quat_hom q = A -> rotation_angle A t -> Rabs (qw q) = cos (t / 2) /\ sqrt (qx q * qx q + qy q * qy q + qz q * qz q) = sin (t / 2) /\ 0 <= t <= PI.
Proof.
  intros U <- [T E]. destruct q as [x y z w]. unfold unit_quat, quat_n2, quat_hom in *. cbn in *. revert E. lin_unfold. cbn. intros E.
  assert (C : cos t = 2 * (cos (t / 2) * cos (t / 2)) - 1).
  { replace t with (2 * (t / 2)) at 1 by field. rewrite cos_2a_cos. ring. }
  pose proof (sin2_cos2 (t / 2)) as S. unfold Rsqr in S. pose proof PI_RGT_0.
  assert (C0 : 0 <= cos (t / 2)) by (apply cos_ge_0; lra). assert (S0 : 0 <= sin (t / 2)) by (apply sin_ge_0; lra).
  split; [|split; auto].
  - rewrite <- (Rabs_right (cos (t / 2))) by lra. apply Rsqr_eq_abs_0. unfold Rsqr. lra.
  - replace (x * x + y * y + z * z) with (sin (t / 2) * sin (t / 2)) by lra. apply sqrt_square. auto.
Qed.
Lemma cauchy3 a b c x y z : Rabs (a * x + b * y + c * z) <= sqrt (a * a + b * b + c * c) * sqrt (x * x + y * y + z * z).
Proof.
  rewrite <- sqrt_mult_alt by nra. rewrite <- sqrt_Rsqr_abs. apply sqrt_le_1_alt. unfold Rsqr.
  assert (0 <= (a * y - b * x) * (a * y - b * x)) by apply Rle_0_sqr. assert (0 <= (a * z - c * x) * (a * z - c * x)) by apply Rle_0_sqr. assert (0 <= (b * z - c * y) * (b * z - c * y)) by apply Rle_0_sqr. lra.
Qed.
Lemma angle_product A B a b c : rotation A -> rotation B -> rotation_angle A a -> rotation_angle B b -> rotation_angle (m3mul A B) c -> c <= a + b.
Proof.
  intros HA HB RA RB RC. destruct (rotation_hom A HA) as (p & UP & EP). destruct (rotation_hom B HB) as (q & UQ & EQ).
  destruct (half_angle A p a UP EP RA) as (CA & SA & BA). destruct (half_angle B q b UQ EQ RB) as (CB & SB & BB).
  assert (UM : unit_quat (quat_mul p q)) by (unfold unit_quat in *; rewrite quat_n2_mul, UP, UQ; ring).
  destruct (half_angle (m3mul A B) (quat_mul p q) c UM) as (CC & _ & BC); auto. { rewrite quat_hom_mul, EP, EQ. reflexivity. }
  destruct (Rle_lt_dec PI (a + b)) as [L|L]; [lra|]. destruct (Rle_lt_dec c (a + b)) as [|G]; [auto|]. exfalso.
  assert (K : cos (c / 2) < cos ((a + b) / 2)) by (apply cos_decreasing_1; lra).
  assert (F : cos ((a + b) / 2) = cos (a / 2) * cos (b / 2) - sin (a / 2) * sin (b / 2)).
  { replace ((a + b) / 2) with (a / 2 + b / 2) by field. apply cos_plus. }
  pose proof (cauchy3 (qx p) (qy p) (qz p) (qx q) (qy q) (qz q)) as CS. rewrite SA, SB in CS.
  assert (W : qw (quat_mul p q) = qw p * qw q - (qx p * qx q + qy p * qy q + qz p * qz q)) by (unfold quat_mul; cbn; ring).
  rewrite W in CC. pose proof (Rabs_triang_inv (qw p * qw q) (qx p * qx q + qy p * qy q + qz p * qz q)) as TI. rewrite Rabs_mult, CA, CB in TI. lra.
Qed.
Lemma rotation_angle_exists A : rotation A -> exists t, rotation_angle A t.
Proof.
  intros HA. destruct (Req_dec (m3trace A) 3) as [E|N].
  - exists 0. pose proof PI_gt_3. split; [lra|]. rewrite cos_0, E. ring.
  - assert (HI : A <> m3id) by (intros ->; apply N; unfold m3trace, m3id; cbn; ring).
    destruct (rotation_rodx_exists A HA HI) as (w & Hw & Ht & _). exists (v3norm w). split; [lra | auto].
Qed.
Lemma rotation_angle_unique A s t : rotation_angle A s -> rotation_angle A t -> s = t.
Proof.
  intros [S ES] [T ET]. assert (E : cos s = cos t) by lra. destruct (Rtotal_order s t) as [L|[L|L]]; auto; exfalso.
  - pose proof (cos_decreasing_1 s t ltac:(lra) ltac:(lra) ltac:(lra) ltac:(lra) L). lra.
  - pose proof (cos_decreasing_1 t s ltac:(lra) ltac:(lra) ltac:(lra) ltac:(lra) L). lra.
Qed.
(** the geodesic distance of rotations *)
Lemma angle_triangle A B C a b c : rotation A -> rotation B -> rotation C ->
  rotation_angle (m3mul A (m3tr B)) a -> rotation_angle (m3mul B (m3tr C)) b -> rotation_angle (m3mul A (m3tr C)) c -> c <= a + b.
Proof.
  intros HA HB HC RA RB RC. apply (angle_product (m3mul A (m3tr B)) (m3mul B (m3tr C)) a b c); auto using rotation_mul, rotation_tr.
  replace (m3mul (m3mul A (m3tr B)) (m3mul B (m3tr C))) with (m3mul A (m3tr C)); auto.
  rewrite m3mul_assoc, <- (m3mul_assoc (m3tr B) B), (rotation_linv B HB), m3mul_id_l. reflexivity.
Qed.

(** ** the norm of ln against the angle *)
Lemma ln_norm_upper A t : rotation A -> rotation_angle A t -> v3norm (so3_ln_vee A) <= t + 6 / 100000000.
Proof.
  intros HA RA. pose proof PI_gt_3 as HPI. destruct RA as [BT ET].
  destruct (Rle_lt_dec (cos t) 0) as [Ho|Ha].
  - assert (Htr : (m3trace A - 1) * (1 / 2) = cos t) by lra.
    destruct (ln_obtuse_norm A) as [-> | ->]; try lra.
    unfold so3_ln; cbv zeta. rewrite Htr, (Rltb_ge (-1 + 1)) by lra. cbn [snd]. rewrite acos_d_cos by lra.
    destruct (Rlt_dec (PI - t) (6 / 100000000)); [rewrite Rltb_lt by auto | rewrite Rltb_ge by lra]; lra.
  - destruct (Req_dec (m3trace A) 3) as [E3|N3].
    { rewrite (rotation_trace3 A HA E3), ln_vee_id, v3norm_zero'. lra. }
    assert (HI : A <> m3id) by (intros ->; apply N3; unfold m3trace, m3id; cbn; ring).
    destruct (rotation_rodx_exists A HA HI) as (w & Hw & Ht & ER).
    assert (v3norm w = t) by (apply (rotation_angle_unique A); split; auto; lra). subst A.
    destruct (Rlt_dec (v3norm w) (1 / 100000)).
    + unfold so3_ln_vee. rewrite ln_rodx_small by lra. cbn [fst]. rewrite vee3_hat3, v3norm_scal.
      pose proof (small_k (v3norm w) ltac:(lra)) as K. assert (/ 10 ^ 21 < 1) by (simpl; lra).
      rewrite Rabs_right by lra. nra.
    + unfold so3_ln_vee. rewrite ln_rodx_acute by (try lra; congruence). cbn [fst]. rewrite vee3_hat3. lra.
Qed.
Lemma ln_norm_lower A t : rotation A -> rotation_angle A t -> t < PI / 2 \/ (~ fixes A (mkV3 1 1 0) /\ ~ fixes A (mkV3 1 (-1) 0)) ->
  t - / 10 ^ 26 <= v3norm (so3_ln_vee A).
Proof.
  intros HA RA G. pose proof PI_gt_3 as HPI. pose proof RA as [BT ET]. assert (P26 : 0 < / 10 ^ 26) by (simpl; lra).
  destruct (Req_dec t 0) as [-> | NZ]; [pose proof (v3norm_nonneg (so3_ln_vee A)); lra|].
  destruct (Rlt_dec t (1 / 100000)) as [Hs|Hs].
  - assert (HI : A <> m3id). { intros ->. apply NZ. apply (rotation_angle_unique m3id); auto. split; [lra|]. rewrite cos_0. unfold m3trace, m3id; cbn; ring. }
    destruct (rotation_rodx_exists A HA HI) as (w & Hw & Ht & ER).
    assert (v3norm w = t) by (apply (rotation_angle_unique A); split; auto; lra). subst A. unfold so3_ln_vee. rewrite ln_rodx_small by lra. cbn [fst]. rewrite vee3_hat3, v3norm_scal.
    pose proof (small_k (v3norm w) ltac:(lra)) as K. assert (0 < / 10 ^ 21 < 1) by (simpl; lra). rewrite Rabs_right by lra. rewrite H in *.
    assert (/ 10 ^ 26 = / 10 ^ 21 * (1 / 100000)) by (simpl; field). nra.
  - destruct (Rle_lt_dec t (PI - 6 / 100000000)) as [Hn|Hn].
    + rewrite (ln_vee_norm_angle A t HA RA); auto; lra.
    + destruct G as [G|G]; [lra|]. assert (CT : cos t <= 0) by (apply cos_le_0; lra).
      destruct (ln_obtuse_norm A) as [E|E]; [lra| |].
      * destruct (ln_zero_iff A HA E) as [-> | [F|F]]; try tauto.
        exfalso. revert ET. unfold m3trace, m3id. cbn. lra.
      * rewrite E. unfold so3_ln; cbv zeta. replace ((m3trace A - 1) * (1 / 2)) with (cos t) by lra. rewrite (Rltb_ge (-1 + 1)) by lra. cbn [snd]. rewrite acos_d_cos by lra. rewrite Rltb_lt by lra. lra.
Qed.
Definition well_read (A : M3) : Prop := (forall t, rotation_angle A t -> t < PI / 2) \/ (~ fixes A (mkV3 1 1 0) /\ ~ fixes A (mkV3 1 (-1) 0)).
Lemma distance_triangle A B C : rotation A -> rotation B -> rotation C -> well_read (m3mul A (m3tr B)) -> well_read (m3mul B (m3tr C)) ->
  so3_distance A C <= so3_distance A B + so3_distance B C + 7 / 100000000.
Proof.
  intros HA HB HC WA WB. unfold so3_distance, so3_mul, so3_inv.
  assert (RM : forall X Y, rotation X -> rotation Y -> rotation (m3mul X (m3tr Y))) by (intros; apply rotation_mul; auto; apply rotation_tr; auto).
  destruct (rotation_angle_exists _ (RM A B HA HB)) as (a & Ra). destruct (rotation_angle_exists _ (RM B C HB HC)) as (b & Rb). destruct (rotation_angle_exists _ (RM A C HA HC)) as (c & Rc).
  pose proof (angle_triangle A B C a b c HA HB HC Ra Rb Rc) as T. pose proof (ln_norm_upper _ c (RM A C HA HC) Rc) as U.
  assert (LA : a - / 10 ^ 26 <= v3norm (so3_ln_vee (m3mul A (m3tr B)))) by (apply ln_norm_lower; auto; destruct WA as [W|W]; auto).
  assert (LB : b - / 10 ^ 26 <= v3norm (so3_ln_vee (m3mul B (m3tr C)))) by (apply ln_norm_lower; auto; destruct WB as [W|W]; auto).
  assert (/ 10 ^ 26 <= 1 / 1000000000) by (simpl; lra). lra.
Qed.
