(** Proofs about isSO3, distance, quaternions and roll-pitch-yaw. *)
Require Import Reals Lra Psatz Bool.
From Verif Require Import Lin LinFacts SO3 SpecGeom SO3Exp SO3Ln TrigBounds.
Local Open Scope R_scope.

(** ** the failure of ln on a half turn about (1,1,0) *)
Definition half_turn_xy : M3 := mkM3 0 1 0 1 0 0 0 0 (-1).
Lemma half_turn_xy_rotation : rotation half_turn_xy.
Proof. split; [unfold orthogonal, half_turn_xy; lin_unfold; apply m3_eq; ring | unfold half_turn_xy; lin_unfold; ring]. Qed.
Lemma half_turn_xy_angle : rotation_angle half_turn_xy PI.
Proof. pose proof PI_gt_3. split; [lra|]. rewrite cos_PI. unfold half_turn_xy; lin_unfold; ring. Qed.
Lemma ln_half_turn_xy : so3_ln half_turn_xy = (m3zero, PI).
Proof.
  unfold so3_ln; cbv zeta.
  replace ((m3trace half_turn_xy - 1) * (1/2)) with (cos PI)
    by (rewrite cos_PI; unfold half_turn_xy; lin_unfold; field).
  pose proof PI_gt_3.
  rewrite acos_d_cos by lra. rewrite cos_PI.
  rewrite (Rltb_ge (-1 + 1)) by lra.
  rewrite (Rltb_lt (PI - PI)) by lra.
  rewrite cos_PI.
  unfold so3_ln_col. cbn [a00 a11 a22 a01 a10 a02 a20 a12 a21 half_turn_xy].
  rewrite (Rltb_ge 0 0) by lra. cbn [andb].
  replace (mkV3 (1 / 2 * (0 + 0)) (1 / 2 * (0 + 0)) (-1 - -1)) with v3zero
    by (unfold v3zero; apply v3_eq; field).
  rewrite v3norm_zero'. rewrite (Rltb_ge 0 0) by lra.
  replace (hat3 v3zero) with m3zero by (symmetry; geo).
  rewrite Rltb_ge; [reflexivity|]. right. f_equal. lin.
Qed.
Lemma half_turn_xy_not_id : half_turn_xy <> m3id.
Proof. unfold half_turn_xy, m3id; intros H; injection H; intros; lra. Qed.

(** ** isSO3 *)
Lemma isSO3_iff A : isSO3 A = true <-> Rabs (m3det A - 1) <= 1 / 1000000.
Proof.
  unfold isSO3; cbv zeta. split.
  - destruct (Rltb (m3det A) 0) eqn:E; [discriminate|].
    destruct (Rltb (1 / 1000000) (Rabs (m3det A - 1))) eqn:E2; [discriminate|].
    intros _. apply Rltb_false in E2. exact E2.
  - intros H. assert (0 <= m3det A).
    { unfold Rabs in H; destruct (Rcase_abs _); lra. }
    rewrite Rltb_ge by auto. rewrite Rltb_ge by auto. reflexivity.
Qed.
Lemma isSO3_complete A : rotation A -> isSO3 A = true.
Proof.
  intros [_ D]. apply isSO3_iff. rewrite D. rewrite Rminus_diag_eq, Rabs_R0 by reflexivity. lra.
Qed.
Lemma isSO3_improper A : m3det A <= 0 -> isSO3 A = false.
Proof.
  intros H. destruct (isSO3 A) eqn:E; auto. exfalso.
  apply isSO3_iff in E. unfold Rabs in E; destruct (Rcase_abs _); lra.
Qed.
Lemma isSO3_unsound : exists A, isSO3 A = true /\ ~ orthogonal A /\
  (* far from orthogonal: it stretches a unit vector by the factor 1000 *)
  v3norm (m3app A (mkV3 1 0 0)) = 1000.
Proof.
  exists (mkM3 1000 0 0 0 (1/1000) 0 0 0 1). split; [|split].
  - apply isSO3_iff. lin_unfold.
    replace (1000 * (1 / 1000 * 1 - 0 * 0) - 0 * (0 * 1 - 0 * 0) + 0 * (0 * 0 - 1 / 1000 * 0) - 1) with 0 by field.
    rewrite Rabs_R0. lra.
  - unfold orthogonal. lin_unfold. intros H. injection H. intros. lra.
  - unfold v3norm. lin_unfold.
    replace ((1000 * 1 + 0 * 0 + 0 * 0) * (1000 * 1 + 0 * 0 + 0 * 0) +
     (0 * 1 + 1 / 1000 * 0 + 0 * 0) * (0 * 1 + 1 / 1000 * 0 + 0 * 0) +
     (0 * 1 + 0 * 0 + 1 * 0) * (0 * 1 + 0 * 0 + 1 * 0)) with (1000 * 1000) by field.
    apply sqrt_square. lra.
Qed.

(** ** ln of the transpose has the same norm *)
Lemma m3norm_tr A : m3norm (m3tr A) = m3norm A.
Proof. unfold m3norm; f_equal; lin. Qed.

Lemma ln_vee_norm_tr A : v3norm (so3_ln_vee (m3tr A)) = v3norm (so3_ln_vee A).
Proof.
  unfold so3_ln_vee, so3_ln; cbv zeta. rewrite m3trace_tr, m3tr_tr.
  set (tr := (m3trace A - 1) * (1 / 2)).
  destruct (Rltb (-1 + 1) tr) eqn:Et.
  - match goal with |- context [let '(d1, o) := ?x in _] => destruct x as [d1 o] end. cbn [fst].
    assert (E : vee3 (m3scal d1 (m3sub (m3tr A) A)) = v3opp (vee3 (m3scal d1 (m3sub A (m3tr A))))).
    { destruct A. geo_unfold. apply v3_eq; ring. }
    rewrite E, v3norm_opp. reflexivity.
  - set (o := match acos_d tr with None => PI | Some o => if Rltb (PI - o) (6 / 100000000) then PI else o end).
    assert (Ec : so3_ln_col (m3tr A) (cos o) = so3_ln_col A (cos o)).
    { destruct A. unfold so3_ln_col. cbn [m3tr Lin.a00 Lin.a01 Lin.a02 Lin.a10 Lin.a11 Lin.a12 Lin.a20 Lin.a21 Lin.a22].
      destruct (_ && _); [apply v3_eq; ring|]. destruct (_ && _); apply v3_eq; ring. }
    rewrite Ec.
    set (w := if Rltb 0 (v3norm (so3_ln_col A (cos o))) then _ else _).
    cbn [fst].
    assert (N : forall b : bool, v3norm (vee3 (if b then m3scal (-1) (hat3 w) else hat3 w)) = v3norm w).
    { intros []; [|rewrite vee3_hat3; reflexivity].
      replace (vee3 (m3scal (-1) (hat3 w))) with (v3opp w) by (clearbody w; geo).
      apply v3norm_opp. }
    rewrite !N. reflexivity.
Qed.

Lemma so3_distance_sym A B : so3_distance A B = so3_distance B A.
Proof.
  unfold so3_distance, so3_mul, so3_inv.
  rewrite <- (ln_vee_norm_tr (m3mul A (m3tr B))), m3tr_mul, m3tr_tr. reflexivity.
Qed.
Lemma so3_distance_nonneg A B : 0 <= so3_distance A B.
Proof. apply v3norm_nonneg. Qed.
Lemma ln_vee_id : so3_ln_vee m3id = v3zero.
Proof.
  unfold so3_ln_vee. pose proof ln_exp_zero as L. rewrite so3_exp_zero in L. rewrite L.
  cbn [fst]. geo.
Qed.
Lemma so3_distance_refl A : rotation A -> so3_distance A A = 0.
Proof.
  intros HA. unfold so3_distance, so3_mul, so3_inv. rewrite (rotation_rinv A HA), ln_vee_id.
  apply v3norm_zero'.
Qed.
Lemma so3_distance_right_inv A B C : rotation C ->
  so3_distance (so3_mul A C) (so3_mul B C) = so3_distance A B.
Proof.
  intros HC. unfold so3_distance, so3_mul, so3_inv. do 2 f_equal.
  rewrite m3tr_mul, m3mul_assoc, <- (m3mul_assoc C), (rotation_rinv C HC), m3mul_id_l. reflexivity.
Qed.

(** norm of ln for every rotation: the angle in the exact range *)
Lemma ln_vee_norm_angle A theta : rotation A -> rotation_angle A theta ->
  theta = 0 \/ 1 / 100000 <= theta <= PI - 6 / 100000000 \/ theta = PI ->
  (theta < PI / 2 \/ (~ fixes A (mkV3 1 1 0) /\ ~ fixes A (mkV3 1 (-1) 0))) ->
  v3norm (so3_ln_vee A) = theta.
Proof.
  intros HA [Hth Htr] Hrange Hgood. pose proof PI_gt_3 as Hpi.
  destruct (Req_dec theta 0) as [E0|N0].
  { subst theta. rewrite cos_0 in Htr. assert (A = m3id) by (apply rotation_trace3; auto; lra).
    subst A. rewrite ln_vee_id. apply v3norm_zero'. }
  assert (HI : A <> m3id).
  { intros ->. assert (cos theta = 1) by (unfold m3trace, m3id in Htr; cbn in Htr; lra).
    assert (cos theta < 1); [|lra]. rewrite <- cos_0. apply cos_decreasing_1; lra. }
  destruct (rotation_rodx_exists A HA HI) as (w & Hw & Hwt & Hr).
  assert (Eth : v3norm w = theta) by (apply cos_inj; lra).
  destruct (Rlt_dec theta (PI / 2)) as [Hac|Hob].
  - unfold so3_ln_vee. rewrite <- Hr, ln_rodx_acute; try lra.
    + cbn [fst]. rewrite vee3_hat3; auto.
    + rewrite Eth. apply cos_gt_0; lra.
  - assert (HB : ~ bad_axis w).
    { intros B. apply (bad_axis_fixes w Hw) in B. rewrite Hr in B.
      destruct Hgood as [?|[? ?]]; [lra|]. destruct B; contradiction. }
    destruct (ln_rodx_obtuse w) as (s & Hs & Hs1 & L); auto; try lra.
    { rewrite Eth; apply cos_le_0; lra. }
    unfold so3_ln_vee. rewrite <- Hr, L. cbn [fst]. rewrite vee3_hat3, v3norm_scal, (Rabs_sign s Hs). lra.
Qed.

(** ** quaternions *)
Definition quat_n2 (q : Quat) : R := qx q * qx q + qy q * qy q + qz q * qz q + qw q * qw q.
Definition unit_quat (q : Quat) : Prop := quat_n2 q = 1.
Definition quat_scal (k : R) (q : Quat) : Quat := mkQuat (k * qx q) (k * qy q) (k * qz q) (k * qw q).
Definition quat_vec (q : Quat) : V3 := mkV3 (qx q) (qy q) (qz q).
(** homogeneous form *)
Definition quat_hom (q : Quat) : M3 :=
  let x := qx q in let y := qy q in let z := qz q in let w := qw q in
  mkM3 (w*w + x*x - y*y - z*z) (2*(x*y - w*z)) (2*(x*z + w*y))
       (2*(x*y + w*z)) (w*w - x*x + y*y - z*z) (2*(y*z - w*x))
       (2*(x*z - w*y)) (2*(y*z + w*x)) (w*w - x*x - y*y + z*z).
Ltac quat := intros; repeat match goal with q : Quat |- _ => destruct q end;
  cbv [quat_toRotationMatrix quat_hom quat_mul quat_scal quat_vec quat_n2 qx qy qz qw rod hat3]; lin_unfold.

Lemma quat_rod q : quat_toRotationMatrix q = rod (2 * qw q) 2 (quat_vec q).
Proof. quat. lin_split; ring. Qed.
Lemma quat_rot_unit q : unit_quat q -> rotation (quat_toRotationMatrix q).
Proof.
  intros H. rewrite quat_rod. apply rod_exact_rotation.
  unfold unit_quat in H. destruct q as [x y z w]. unfold quat_n2 in H. cbn in H. unfold quat_vec. lin_unfold. cbn. lra.
Qed.
Lemma quat_hom_unit q : unit_quat q -> quat_toRotationMatrix q = quat_hom q.
Proof.
  destruct q as [x y z w]. unfold unit_quat, quat_n2; cbn. intros H. unfold quat_toRotationMatrix, quat_hom; cbn. apply m3_eq; try ring; lra.
Qed.
Lemma quat_hom_mul a b : quat_hom (quat_mul a b) = m3mul (quat_hom a) (quat_hom b).
Proof. quat. lin_split; ring. Qed.
Lemma quat_n2_mul a b : quat_n2 (quat_mul a b) = quat_n2 a * quat_n2 b.
Proof. quat. ring. Qed.
Lemma quat_mul_rot a b : unit_quat a -> unit_quat b ->
  quat_toRotationMatrix (quat_mul a b) = m3mul (quat_toRotationMatrix a) (quat_toRotationMatrix b).
Proof.
  intros Ha Hb. rewrite !quat_hom_unit; auto. { apply quat_hom_mul. }
  unfold unit_quat in *. rewrite quat_n2_mul, Ha, Hb. ring.
Qed.

Lemma quat_n2_nonneg q : 0 <= quat_n2 q.
Proof. destruct q; unfold quat_n2; cbn; nra. Qed.
Lemma quat_n2_zero q : quat_n2 q = 0 -> q = mkQuat 0 0 0 0.
Proof. destruct q; unfold quat_n2; cbn; intros; f_equal; nra. Qed.
Lemma quat_nonzero q : q <> mkQuat 0 0 0 0 -> 0 < quat_n2 q.
Proof.
  intros H. destruct (Rle_lt_or_eq_dec _ _ (quat_n2_nonneg q)) as [L|E]; auto.
  exfalso; apply H, quat_n2_zero; auto.
Qed.
Lemma quat_normalized_eq q : 0 < quat_n2 q ->
  quat_normalized q = quat_scal (/ sqrt (quat_n2 q)) q.
Proof.
  intros H. unfold quat_normalized. change (quat_norm q) with (sqrt (quat_n2 q)).
  rewrite Rltb_lt by (apply sqrt_lt_R0; auto).
  unfold quat_scal. f_equal; unfold Rdiv; ring.
Qed.
Lemma quat_n2_scal k q : quat_n2 (quat_scal k q) = k * k * quat_n2 q.
Proof. quat. ring. Qed.
Lemma quat_normalized_unit q : 0 < quat_n2 q -> unit_quat (quat_normalized q).
Proof.
  intros H. rewrite quat_normalized_eq by auto. unfold unit_quat. rewrite quat_n2_scal.
  assert (S : sqrt (quat_n2 q) * sqrt (quat_n2 q) = quat_n2 q) by (apply sqrt_sqrt; lra).
  assert (0 < sqrt (quat_n2 q)) by (apply sqrt_lt_R0; auto).
  rewrite <- S at 3. field. lra.
Qed.
Lemma quat_to_so3_rotation q : q <> mkQuat 0 0 0 0 -> rotation (quat_to_so3 q).
Proof. intros H. apply quat_rot_unit, quat_normalized_unit, quat_nonzero, H. Qed.

Lemma quat_to_so3_hom q : 0 < quat_n2 q -> quat_to_so3 q = m3scal (/ quat_n2 q) (quat_hom q).
Proof.
  intros H. unfold quat_to_so3. rewrite quat_hom_unit by (apply quat_normalized_unit; auto).
  rewrite quat_normalized_eq by auto.
  assert (S : sqrt (quat_n2 q) * sqrt (quat_n2 q) = quat_n2 q) by (apply sqrt_sqrt; lra).
  assert (P : 0 < sqrt (quat_n2 q)) by (apply sqrt_lt_R0; auto).
  assert (E : forall k, quat_hom (quat_scal k q) = m3scal (k * k) (quat_hom q)) by (quat; lin_split; ring).
  rewrite E. f_equal. rewrite <- S at 3. field. lra.
Qed.
Lemma quat_to_so3_scal k q : k <> 0 -> q <> mkQuat 0 0 0 0 ->
  quat_to_so3 (quat_scal k q) = quat_to_so3 q.
Proof.
  intros Hk Hq. pose proof (quat_nonzero q Hq) as H.
  assert (H2 : 0 < quat_n2 (quat_scal k q)) by (rewrite quat_n2_scal; apply Rmult_lt_0_compat; auto; destruct (Rdichotomy _ _ Hk); nra).
  rewrite !quat_to_so3_hom by auto. rewrite quat_n2_scal.
  assert (E : quat_hom (quat_scal k q) = m3scal (k * k) (quat_hom q)) by (clear; quat; lin_split; ring).
  rewrite E. assert (X : forall a b M, m3scal a (m3scal b M) = m3scal (a * b) M) by lin. rewrite X.
  f_equal. field. split; auto; lra.
Qed.
Lemma quat_to_so3_unit q : unit_quat q -> quat_to_so3 q = quat_toRotationMatrix q.
Proof.
  intros H. unfold unit_quat in H. rewrite quat_to_so3_hom by lra. rewrite H, Rinv_1, m3scal_1.
  symmetry. apply quat_hom_unit, H.
Qed.

(** every rotation comes from a unit quaternion *)
Lemma rotation_quat A : rotation A -> exists q, unit_quat q /\ quat_toRotationMatrix q = A.
Proof.
  intros HA.
  assert (D : A = m3id \/ A <> m3id).
  { destruct (Req_dec (m3trace A) 3) as [E|N].
    - left. apply rotation_trace3; auto.
    - right. intros ->. apply N. unfold m3trace, m3id; cbn; ring. }
  destruct D as [->|HI].
  - exists (mkQuat 0 0 0 1). split; [unfold unit_quat, quat_n2; cbn; ring|].
    cbv [quat_toRotationMatrix qx qy qz qw m3id]. apply m3_eq; ring.
  - destruct (rotation_rodx_exists A HA HI) as (w & Hw & _ & Hr).
    set (o := v3norm w) in *. set (k := sin (o / 2) / o).
    exists (mkQuat (k * vx w) (k * vy w) (k * vz w) (cos (o / 2))).
    assert (HS : v3sqn w = o * o) by (symmetry; apply v3norm_sq).
    assert (Es : sin o = 2 * sin (o / 2) * cos (o / 2)) by (rewrite <- sin_2a; f_equal; field).
    assert (Ec : cos o = 1 - 2 * sin (o / 2) * sin (o / 2)) by (rewrite <- cos_2a_sin; f_equal; field).
    split.
    + unfold unit_quat, quat_n2; cbn.
      replace (k * vx w * (k * vx w) + k * vy w * (k * vy w) + k * vz w * (k * vz w) + cos (o / 2) * cos (o / 2))
        with (k * k * v3sqn w + cos (o/2) * cos (o/2)) by (destruct w; lin_unfold; ring).
      rewrite HS. unfold k.
      replace (sin (o / 2) / o * (sin (o / 2) / o) * (o * o)) with (sin (o/2) * sin (o/2)) by (field; lra).
      apply sin2cos2.
    + rewrite quat_rod. cbn [qw]. rewrite <- Hr.
      replace (quat_vec _) with (v3scal k w) by (unfold quat_vec; destruct w; reflexivity).
      rewrite rod_scal. unfold rodx. fold o. f_equal.
      * rewrite Es. unfold k. field. lra.
      * rewrite Ec. unfold k. field. lra.
Qed.

(** so3_to_quat inverts up to sign *)
Lemma sqrt_4sq x : sqrt (4 * (x * x)) = 2 * Rabs x.
Proof.
  replace (4 * (x * x)) with (Rsqr (2 * x)) by (unfold Rsqr; ring).
  rewrite sqrt_Rsqr_abs, Rabs_mult, (Rabs_right 2); lra.
Qed.
Lemma so3_to_quat_pm q : unit_quat q ->
  exists s, (s = 1 \/ s = -1) /\ so3_to_quat (quat_toRotationMatrix q) = quat_scal s q.
Proof.
  intros Hq. rewrite quat_hom_unit by auto.
  destruct q as [x y z w]. unfold unit_quat, quat_n2 in Hq. cbn in Hq.
  assert (T : m3trace (quat_hom (mkQuat x y z w)) + 1 = 4 * (w * w)).
  { quat. lra. }
  assert (SG : forall t, t <> 0 -> exists s, (s = 1 \/ s = -1) /\ Rabs t = s * t).
  { intros t Ht. unfold Rabs; destruct (Rcase_abs t); [exists (-1)|exists 1]; split; auto; ring. }
  unfold so3_to_quat; cbv zeta.
  destruct (Rltb 0 (m3trace (quat_hom (mkQuat x y z w)))) eqn:Et.
  - apply Rltb_true in Et. rewrite T, sqrt_4sq.
    assert (Hw : w <> 0) by (intros ->; lra).
    destruct (SG w Hw) as (s & Hs & Ea). exists s. split; auto. rewrite Ea.
    assert (Hss : s * s = 1) by (destruct Hs as [->| ->]; ring).
    assert (Hs0 : s <> 0) by (destruct Hs as [->| ->]; lra).
    assert (Hi : / s = s) by (destruct Hs as [->| ->]; field).
    quat. clear Ea; destruct Hs as [->| ->]; f_equal; field; lra.
  - apply Rltb_false in Et.
    assert (Hww : w * w <= 1 / 4) by lra.
    assert (D0 : a00 (quat_hom (mkQuat x y z w)) = w*w + x*x - y*y - z*z) by reflexivity.
    assert (D1 : a11 (quat_hom (mkQuat x y z w)) = w*w - x*x + y*y - z*z) by reflexivity.
    assert (D2 : a22 (quat_hom (mkQuat x y z w)) = w*w - x*x - y*y + z*z) by reflexivity.
    assert (I1 : Rltb (a00 (quat_hom (mkQuat x y z w))) (a11 (quat_hom (mkQuat x y z w))) = Rltb (x*x) (y*y)).
    { rewrite D0, D1. unfold Rltb. destruct (Rlt_dec (x*x) (y*y)), (Rlt_dec _ _); auto; exfalso; lra. }
    rewrite I1. clear I1.
    destruct (Rltb (x * x) (y * y)) eqn:E1; [apply Rltb_true in E1 | apply Rltb_false in E1].
    + rewrite D1, D2. destruct (Rltb _ _) eqn:E2; [apply Rltb_true in E2 | apply Rltb_false in E2].
      * replace (w * w - x * x - y * y + z * z - a00 (quat_hom (mkQuat x y z w)) - (w * w - x * x + y * y - z * z) + 1)
          with (4 * (z * z)) by (rewrite D0; lra).
        rewrite sqrt_4sq.
        assert (Hz : z <> 0) by (intros E; assert (E' : z * z = 0) by (rewrite E; ring); pose proof (Rle_0_sqr x); pose proof (Rle_0_sqr y); pose proof (Rle_0_sqr z); unfold Rsqr in *; lra).
        destruct (SG z Hz) as (s & Hs & Ea). exists s. split; auto. rewrite Ea.
        assert (Hs0 : s <> 0) by (destruct Hs as [->| ->]; lra).
        assert (Hi : / s = s) by (destruct Hs as [->| ->]; field).
        quat. clear Ea; destruct Hs as [->| ->]; f_equal; field; lra.
      * replace (w * w - x * x + y * y - z * z - (w * w - x * x - y * y + z * z) - a00 (quat_hom (mkQuat x y z w)) + 1)
          with (4 * (y * y)) by (rewrite D0; lra).
        rewrite sqrt_4sq.
        assert (Hy : y <> 0) by (intros E; assert (E' : y * y = 0) by (rewrite E; ring); pose proof (Rle_0_sqr x); pose proof (Rle_0_sqr y); pose proof (Rle_0_sqr z); unfold Rsqr in *; lra).
        destruct (SG y Hy) as (s & Hs & Ea). exists s. split; auto. rewrite Ea.
        assert (Hs0 : s <> 0) by (destruct Hs as [->| ->]; lra).
        assert (Hi : / s = s) by (destruct Hs as [->| ->]; field).
        quat. clear Ea; destruct Hs as [->| ->]; f_equal; field; lra.
    + rewrite D0, D2. destruct (Rltb _ _) eqn:E2; [apply Rltb_true in E2 | apply Rltb_false in E2].
      * replace (w * w - x * x - y * y + z * z - (w * w + x * x - y * y - z * z) - a11 (quat_hom (mkQuat x y z w)) + 1)
          with (4 * (z * z)) by (rewrite D1; lra).
        rewrite sqrt_4sq.
        assert (Hz : z <> 0) by (intros E; assert (E' : z * z = 0) by (rewrite E; ring); pose proof (Rle_0_sqr x); pose proof (Rle_0_sqr y); pose proof (Rle_0_sqr z); unfold Rsqr in *; lra).
        destruct (SG z Hz) as (s & Hs & Ea). exists s. split; auto. rewrite Ea.
        assert (Hs0 : s <> 0) by (destruct Hs as [->| ->]; lra).
        assert (Hi : / s = s) by (destruct Hs as [->| ->]; field).
        quat. clear Ea; destruct Hs as [->| ->]; f_equal; field; lra.
      * replace (w * w + x * x - y * y - z * z - a11 (quat_hom (mkQuat x y z w)) - (w * w - x * x - y * y + z * z) + 1)
          with (4 * (x * x)) by (rewrite D1; lra).
        rewrite sqrt_4sq.
        assert (Hx : x <> 0) by (intros E; assert (E' : x * x = 0) by (rewrite E; ring); pose proof (Rle_0_sqr x); pose proof (Rle_0_sqr y); pose proof (Rle_0_sqr z); unfold Rsqr in *; lra).
        destruct (SG x Hx) as (s & Hs & Ea). exists s. split; auto. rewrite Ea.
        assert (Hs0 : s <> 0) by (destruct Hs as [->| ->]; lra).
        assert (Hi : / s = s) by (destruct Hs as [->| ->]; field).
        quat. clear Ea; destruct Hs as [->| ->]; f_equal; field; lra.
Qed.
Lemma quat_roundtrip A : rotation A -> quat_to_so3 (so3_to_quat A) = A /\ unit_quat (so3_to_quat A).
Proof.
  intros HA. destruct (rotation_quat A HA) as (q & Hq & E).
  destruct (so3_to_quat_pm q Hq) as (s & Hs & Es). rewrite E in Es. rewrite Es.
  assert (Hnz : q <> mkQuat 0 0 0 0).
  { intros ->. unfold unit_quat, quat_n2 in Hq; cbn in Hq; lra. }
  split.
  - rewrite quat_to_so3_scal; auto; [|destruct Hs as [->| ->]; lra].
    rewrite quat_to_so3_unit by auto. exact E.
  - unfold unit_quat in *. rewrite quat_n2_scal, Hq. destruct Hs as [->| ->]; ring.
Qed.

(** ** roll pitch yaw *)
Lemma quat_axis_x a : unit_quat (quat_of_angle_axis a (mkV3 1 0 0)) /\
  quat_toRotationMatrix (quat_of_angle_axis a (mkV3 1 0 0)) = rot_x a.
Proof.
  pose proof (sin2cos2 (1/2 * a)) as S. split.
  - unfold unit_quat, quat_n2, quat_of_angle_axis; cbn. lra.
  - cbv [quat_toRotationMatrix quat_of_angle_axis qx qy qz qw vx vy vz rot_x].
    replace (cos a) with (1 - 2 * sin (1/2 * a) * sin (1/2 * a)) by (rewrite <- cos_2a_sin; f_equal; field).
    replace (sin a) with (2 * sin (1/2 * a) * cos (1/2 * a)) by (rewrite <- sin_2a; f_equal; field).
    apply m3_eq; ring.
Qed.
Lemma quat_axis_y a : unit_quat (quat_of_angle_axis a (mkV3 0 1 0)) /\
  quat_toRotationMatrix (quat_of_angle_axis a (mkV3 0 1 0)) = rot_y a.
Proof.
  pose proof (sin2cos2 (1/2 * a)) as S. split.
  - unfold unit_quat, quat_n2, quat_of_angle_axis; cbn. lra.
  - cbv [quat_toRotationMatrix quat_of_angle_axis qx qy qz qw vx vy vz rot_y].
    replace (cos a) with (1 - 2 * sin (1/2 * a) * sin (1/2 * a)) by (rewrite <- cos_2a_sin; f_equal; field).
    replace (sin a) with (2 * sin (1/2 * a) * cos (1/2 * a)) by (rewrite <- sin_2a; f_equal; field).
    apply m3_eq; ring.
Qed.
Lemma quat_axis_z a : unit_quat (quat_of_angle_axis a (mkV3 0 0 1)) /\
  quat_toRotationMatrix (quat_of_angle_axis a (mkV3 0 0 1)) = rot_z a.
Proof.
  pose proof (sin2cos2 (1/2 * a)) as S. split.
  - unfold unit_quat, quat_n2, quat_of_angle_axis; cbn. lra.
  - cbv [quat_toRotationMatrix quat_of_angle_axis qx qy qz qw vx vy vz rot_z].
    replace (cos a) with (1 - 2 * sin (1/2 * a) * sin (1/2 * a)) by (rewrite <- cos_2a_sin; f_equal; field).
    replace (sin a) with (2 * sin (1/2 * a) * cos (1/2 * a)) by (rewrite <- sin_2a; f_equal; field).
    apply m3_eq; ring.
Qed.
Lemma unit_quat_mul a b : unit_quat a -> unit_quat b -> unit_quat (quat_mul a b).
Proof. unfold unit_quat; intros Ha Hb. rewrite quat_n2_mul, Ha, Hb. ring. Qed.
Lemma rpy_to_so3_eq v :
  rpy_to_so3 v = m3mul (m3mul (rot_x (vx v)) (rot_y (vy v))) (rot_z (vz v)).
Proof.
  destruct (quat_axis_x (vx v)) as [Ux Ex], (quat_axis_y (vy v)) as [Uy Ey], (quat_axis_z (vz v)) as [Uz Ez].
  unfold rpy_to_so3. rewrite quat_mul_rot, quat_mul_rot, Ex, Ey, Ez; auto.
  apply unit_quat_mul; auto.
Qed.
Lemma rpy_to_so3_rotation v : rotation (rpy_to_so3 v).
Proof.
  destruct (quat_axis_x (vx v)) as [Ux Ex], (quat_axis_y (vy v)) as [Uy Ey], (quat_axis_z (vz v)) as [Uz Ez].
  apply quat_rot_unit. apply unit_quat_mul; auto. apply unit_quat_mul; auto.
Qed.
