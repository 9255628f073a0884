(** Proofs: SO3::ln and SE3::ln for angles in (pi - 6e-8, pi), where the code replaces the angle by pi. *)
Require Import Reals Lra Psatz Bool.
From Verif Require Import Lin LinFacts SO3 SE3 SpecGeom SO3Exp SO3ExpTrue TrigBounds SO3Ln SO3Misc SO3Near SO3Dist SE3Alg SE3Exp SE3Ln.
Local Open Scope R_scope.

Lemma scal_norm_le k e u n : Rabs k <= e -> v3norm u <= n -> v3norm (v3scal k u) <= e * n.
Proof.
  intros Hk Hu. rewrite v3norm_scal. apply Rmult_le_compat; auto using Rabs_pos, v3norm_nonneg.
Qed.
Lemma rod_diff_norm a b a' b' w w' v :
  v3norm (v3sub (m3app (rod a b w) v) (m3app (rod a' b' w') v)) <=
  (Rabs (a - a') * v3norm w + Rabs a' * v3norm (v3sub w w') +
   Rabs (b - b') * (v3norm w * v3norm w) + Rabs b' * (v3norm (v3sub w w') * (v3norm w + v3norm w'))) * v3norm v.
Proof.
  pose proof (v3norm_nonneg v). pose proof (v3norm_nonneg w). pose proof (v3norm_nonneg w'). pose proof (v3norm_nonneg (v3sub w w')).
  replace (v3sub (m3app (rod a b w) v) (m3app (rod a' b' w') v)) with
   (v3add (v3add (v3scal (a - a') (v3cross w v)) (v3scal a' (v3cross (v3sub w w') v)))
      (v3add (v3scal (b - b') (v3cross w (v3cross w v)))
         (v3scal b' (v3add (v3cross w (v3cross (v3sub w w') v)) (v3cross (v3sub w w') (v3cross w' v))))))
   by (unfold rod, hat3; lina).
  eapply Rle_trans; [apply v3norm_triangle|].
  eapply Rle_trans; [apply Rplus_le_compat; apply v3norm_triangle|].
  assert (A1 := scal_norm_le (a - a') _ (v3cross w v) _ (Rle_refl _) (cross_norm_le w v)).
  assert (A2 := scal_norm_le a' _ (v3cross (v3sub w w') v) _ (Rle_refl _) (cross_norm_le (v3sub w w') v)).
  assert (C2 : v3norm (v3cross w (v3cross w v)) <= v3norm w * (v3norm w * v3norm v)).
  { eapply Rle_trans; [apply cross_norm_le|]. apply Rmult_le_compat_l; auto. apply cross_norm_le. }
  assert (A3 := scal_norm_le (b - b') _ _ _ (Rle_refl _) C2).
  assert (C3 : v3norm (v3add (v3cross w (v3cross (v3sub w w') v)) (v3cross (v3sub w w') (v3cross w' v))) <=
               v3norm w * (v3norm (v3sub w w') * v3norm v) + v3norm (v3sub w w') * (v3norm w' * v3norm v)).
  { eapply Rle_trans; [apply v3norm_triangle|]. apply Rplus_le_compat.
    - eapply Rle_trans; [apply cross_norm_le|]. apply Rmult_le_compat_l; auto. apply cross_norm_le.
    - eapply Rle_trans; [apply cross_norm_le|]. apply Rmult_le_compat_l; auto. apply cross_norm_le. }
  assert (A4 := scal_norm_le b' _ _ _ (Rle_refl _) C3).
  lra.
Qed.

(** the logarithm in the window is pi times a unit vector *)
Lemma ln_window w : PI - 6 / 100000000 < v3norm w < PI ->
  exists u, so3_ln (rodx w) = (hat3 u, PI) /\ (v3norm u = PI \/ u = v3zero).
Proof.
  intros Ho. pose proof PI_gt_3. unfold so3_ln; cbv zeta. rewrite rodx_tr by lra.
  rewrite acos_d_cos by lra. assert (C : cos (v3norm w) < 0) by (apply cos_lt_0; lra).
  rewrite (Rltb_ge (-1 + 1)) by lra. rewrite (Rltb_lt (PI - v3norm w)) by lra.
  set (c := so3_ln_col _ _). clearbody c.
  assert (E : exists u, (if Rltb 0 (v3norm c) then v3scal (PI / v3norm c) c else v3zero) = u /\ (v3norm u = PI \/ u = v3zero)).
  { destruct (Rltb 0 (v3norm c)) eqn:B; [|eauto]. apply Rltb_true in B. eexists. split; [reflexivity|]. left.
    rewrite v3norm_scal, Rabs_right; [field; lra|]. apply Rle_ge, Rlt_le, Rdiv_lt_0_compat; lra. }
  destruct E as (u & -> & Hu). destruct (Rltb _ _).
  - exists (v3scal (-1) u). split; [rewrite hat3_scal; reflexivity|]. destruct Hu as [Hu| ->].
    + left. rewrite v3norm_scal, Hu, Rabs_left; lra.
    + right. unfold v3zero, v3scal; cbn. apply v3_eq; ring.
  - exists u. auto.
Qed.
Lemma ln_window_good w : PI - 6 / 100000000 < v3norm w < PI ->
  ~ (vx w * vx w = vy w * vy w /\ vz w * vz w < vx w * vx w /\ Rabs (vz w) < 1 / 10000) ->
  exists u, so3_ln (rodx w) = (hat3 u, PI) /\ v3norm u = PI /\ v3norm (v3sub w u) <= 7 / 100000000.
Proof.
  intros Ho Ht. pose proof PI_gt_3. destruct (ln_window w Ho) as (u & E & Hu). exists u. split; auto.
  destruct (ln_near_pi w Ho Ht) as [D _]. unfold so3_ln_vee in D. rewrite E in D. cbn [fst] in D. rewrite vee3_hat3 in D.
  rewrite v3norm_sub_sym in D. split; auto. destruct Hu as [Hu| ->]; auto.
  replace (v3sub w v3zero) with w in D by (unfold v3zero; lina). lra.
Qed.

Lemma window_trig o : PI - 6 / 100000000 < o < PI ->
  0 <= sin o <= 6 / 100000000 /\ -1 <= cos o <= -1 + 2 / 1000000000000000.
Proof.
  intros Ho. pose proof PI_gt_3. split.
  - split; [left; apply sin_gt_0; lra|]. assert (E : sin o = sin (PI - o)) by (rewrite sin_minus, sin_PI, cos_PI; ring).
    rewrite E. left. eapply Rlt_le_trans; [apply sin_lt_x; lra|lra].
  - split; [apply COS_bound|].
    replace o with (PI - (PI - o)) by ring. rewrite cos_minus, cos_PI, sin_PI.
    pose proof (cos_taylor4 (PI - o) ltac:(lra)) as [L _].
    assert ((PI - o) ^ 2 <= 36 / 10000000000000000) by (simpl; nra). lra.
Qed.
Lemma ratio_window o : PI - 6 / 100000000 < o < PI -> 1 - 4 / 100000000 <= (o * o) / (PI * PI) <= 1.
Proof.
  intros Ho. pose proof PI_gt_3. split.
  - apply Rmult_le_reg_r with (PI * PI); [nra|]. unfold Rdiv at 2. rewrite Rmult_assoc, Rinv_l, Rmult_1_r by nra. nra.
  - apply Rmult_le_reg_r with (PI * PI); [nra|]. unfold Rdiv. rewrite Rmult_assoc, Rinv_l, Rmult_1_r by nra. nra.
Qed.
Lemma inv_PI_bounds : 0 < / PI < 1 / 3.
Proof. pose proof PI_gt_3. split; [apply Rinv_0_lt_compat; lra|]. replace (1 / 3) with (/ 3) by field. apply Rinv_lt_contravar; lra. Qed.

Lemma within_of_app e A : (forall v, v3norm (m3app A v) <= e * v3norm v) -> m3_within e A.
Proof.
  intros H. assert (B : forall k, v3norm (basis k) = 1).
  { intros k. unfold v3norm. rewrite <- sqrt_1. f_equal. unfold basis; destruct k as [|[|k]]; lin_unfold; ring. }
  pose proof (H (basis 0)) as H0. pose proof (H (basis 1)) as H1. pose proof (H (basis 2)) as H2. rewrite B, Rmult_1_r in H0, H1, H2.
  apply v3_within_norm in H0, H1, H2. unfold v3_within, m3app, basis, v3dot in *; cbn in *.
  destruct A; cbn in *. unfold m3_within; cbn.
  destruct H0 as (X0 & X1 & X2), H1 as (Y0 & Y1 & Y2), H2 as (Z0 & Z1 & Z2).
  repeat split;
  match goal with
  | X : Rabs ?b <= e |- Rabs ?a <= e => replace a with b by ring; exact X
  end.
Qed.

Lemma rodx_window w u : PI - 6 / 100000000 < v3norm w < PI -> v3norm u = PI -> v3norm (v3sub w u) <= 7 / 100000000 ->
  forall v, v3norm (v3sub (m3app (rodx w) v) (m3app (rodx u) v)) <= 3 / 10000000 * v3norm v.
Proof.
  intros Ho Hu Hd v. pose proof PI_gt_3 as P3. pose proof PI_4 as P4. unfold rodx. eapply Rle_trans; [apply rod_diff_norm|].
  apply Rmult_le_compat_r; [apply v3norm_nonneg|]. rewrite Hu, sin_PI, cos_PI.
  destruct (window_trig _ Ho) as [Sn Cs]. pose proof (ratio_window _ Ho) as Rt. pose proof inv_PI_bounds as IP.
  set (o := v3norm w) in *. pose proof (v3norm_nonneg (v3sub w u)) as Hd0. set (d := v3norm (v3sub w u)) in *.
  assert (T1 : Rabs (sin o / o - 0 / PI) * o <= 6 / 100000000).
  { replace (sin o / o - 0 / PI) with (sin o / o) by (field; lra). rewrite Rabs_right.
    - replace (sin o / o * o) with (sin o) by (field; lra). lra.
    - apply Rle_ge. unfold Rdiv. apply Rmult_le_pos; [lra|]. left; apply Rinv_0_lt_compat; lra. }
  assert (T2 : Rabs (0 / PI) * d = 0) by (unfold Rdiv; rewrite Rmult_0_l, Rabs_R0; ring).
  assert (T3 : Rabs ((1 - cos o) / (o * o) - (1 - -1) / (PI * PI)) * (o * o) <= 9 / 100000000).
  { rewrite <- (Rabs_right (o * o)) at 2 by nra. rewrite <- Rabs_mult.
    replace (((1 - cos o) / (o * o) - (1 - -1) / (PI * PI)) * (o * o)) with (1 - cos o - 2 * ((o * o) / (PI * PI))) by (field; lra).
    apply Rabs_le. lra. }
  assert (T4 : Rabs ((1 - -1) / (PI * PI)) * (d * (o + PI)) <= 4 / 3 * d).
  { replace ((1 - -1) / (PI * PI)) with (2 * / PI * / PI) by (field; lra).
    rewrite Rabs_right by (apply Rle_ge; assert (0 < / PI * / PI) by (apply Rmult_lt_0_compat; lra); lra).
    assert (2 * / PI * / PI * (d * (o + PI)) <= 2 * / PI * / PI * (d * (2 * PI))).
    { apply Rmult_le_compat_l; [assert (0 < / PI * / PI) by (apply Rmult_lt_0_compat; lra); lra|]. apply Rmult_le_compat_l; lra. }
    replace (2 * / PI * / PI * (d * (2 * PI))) with (4 * d * / PI) in H by (field; lra).
    assert (4 * d * / PI <= 4 * d * (1 / 3)) by (apply Rmult_le_compat_l; lra). lra. }
  lra.
Qed.

Lemma V_window w u : PI - 6 / 100000000 < v3norm w < PI -> v3norm u = PI -> v3norm (v3sub w u) <= 7 / 100000000 ->
  forall v, v3norm (v3sub (m3app (Vmat w) v) (m3app (Vmat u) v)) <= 2 / 10000000 * v3norm v.
Proof.
  intros Ho Hu Hd v. pose proof PI_gt_3 as P3. pose proof PI_4 as P4. rewrite !Vmat_exact by lra. unfold Vx.
  eapply Rle_trans; [apply rod_diff_norm|].
  apply Rmult_le_compat_r; [apply v3norm_nonneg|]. rewrite Hu. unfold va, vb. rewrite sin_PI, cos_PI.
  destruct (window_trig _ Ho) as [Sn Cs]. pose proof (ratio_window _ Ho) as Rt. pose proof inv_PI_bounds as IP.
  set (o := v3norm w) in *. pose proof (v3norm_nonneg (v3sub w u)) as Hd0. set (d := v3norm (v3sub w u)) in *.
  assert (PP : 0 < / PI * / PI < 1 / 9) by (split; [apply Rmult_lt_0_compat; lra|nra]).
  assert (T3 : Rabs ((1 - cos o) / (o * o) - (1 - -1) / (PI * PI)) * (o * o) <= 9 / 100000000).
  { rewrite <- (Rabs_right (o * o)) at 2 by nra. rewrite <- Rabs_mult.
    replace (((1 - cos o) / (o * o) - (1 - -1) / (PI * PI)) * (o * o)) with (1 - cos o - 2 * ((o * o) / (PI * PI))) by (field; lra).
    apply Rabs_le. lra. }
  assert (T1 : Rabs ((1 - cos o) / (o * o) - (1 - -1) / (PI * PI)) * o <= 45 / 1000000000).
  { set (x := Rabs _) in *. assert (0 <= x) by apply Rabs_pos. clearbody x. nra. }
  assert (T2 : Rabs ((1 - -1) / (PI * PI)) * d <= 2 / 9 * d).
  { replace ((1 - -1) / (PI * PI)) with (2 * (/ PI * / PI)) by (field; lra). rewrite Rabs_right by lra. apply Rmult_le_compat_r; lra. }
  assert (Ss : 0 <= sin o / o <= 3 / 100000000).
  { split; [unfold Rdiv; apply Rmult_le_pos; [lra|]; left; apply Rinv_0_lt_compat; lra|].
    apply Rmult_le_reg_r with o; [lra|]. unfold Rdiv at 1. rewrite Rmult_assoc, Rinv_l, Rmult_1_r by lra. lra. }
  assert (T5 : Rabs ((o - sin o) / (o * o * o) - (PI - 0) / (PI * PI * PI)) * (o * o) <= 4 / 100000000).
  { rewrite <- (Rabs_right (o * o)) at 2 by nra. rewrite <- Rabs_mult.
    replace (((o - sin o) / (o * o * o) - (PI - 0) / (PI * PI * PI)) * (o * o)) with (1 - sin o / o - (o * o) / (PI * PI)) by (field; lra).
    apply Rabs_le. lra. }
  assert (T4 : Rabs ((PI - 0) / (PI * PI * PI)) * (d * (o + PI)) <= 2 / 3 * d).
  { replace ((PI - 0) / (PI * PI * PI)) with (/ PI * / PI) by (field; lra).
    rewrite Rabs_right by lra.
    assert (/ PI * / PI * (d * (o + PI)) <= / PI * / PI * (d * (2 * PI))).
    { apply Rmult_le_compat_l; [lra|]. apply Rmult_le_compat_l; lra. }
    replace (/ PI * / PI * (d * (2 * PI))) with (2 * d * / PI) in H by (field; lra).
    assert (2 * d * / PI <= 2 * d * (1 / 3)) by (apply Rmult_le_compat_l; lra). lra. }
  lra.
Qed.

Lemma Vinv_pi_norm u x : v3norm u = PI -> v3norm (m3app (rod (- (1 / 2)) (se3_ln_k1 PI) u) x) <= 4 * v3norm x.
Proof.
  intros Hu. pose proof PI_gt_3. pose proof PI_4. pose proof (v3norm_nonneg x).
  assert (K : se3_ln_k1 PI = / PI * / PI).
  { unfold se3_ln_k1. rewrite Rltb_lt by lra. cbv zeta. rewrite sin_PI, cos_PI. field. lra. }
  rewrite K. pose proof (rod_diff_norm (- (1/2)) (/ PI * / PI) 0 0 u u x) as D.
  replace (m3app (rod 0 0 u) x) with x in D by (unfold rod, hat3; lina).
  rewrite !Rminus_0_r, Rabs_R0, Hu in D. rewrite (Rabs_left (- (1 / 2))) in D by lra.
  rewrite (Rabs_right (/ PI * / PI)) in D by (apply Rle_ge; pose proof inv_PI_bounds; assert (0 < / PI * / PI) by (apply Rmult_lt_0_compat; lra); lra).
  replace (/ PI * / PI * (PI * PI)) with 1 in D by (field; lra).
  pose proof (v3norm_le_sub (m3app (rod (- (1 / 2)) (/ PI * / PI) u) x) x) as T.
  assert ((- - (1 / 2) * PI) * v3norm x <= 2 * v3norm x) by (apply Rmult_le_compat_r; lra). lra.
Qed.

Lemma exp_ln_window A theta : rotation A -> rotation_angle A theta -> PI - 6 / 100000000 < theta < PI ->
  ~ (a00 A = a11 A /\ a22 A < a00 A /\ a22 A < -1 + 1 / 100000000) ->
  exists w u, v3norm w = theta /\ rodx w = A /\ so3_ln A = (hat3 u, PI) /\ v3norm u = PI /\ v3norm (v3sub w u) <= 7 / 100000000.
Proof.
  intros HA Hang Hw Ht. pose proof PI_gt_3. destruct (rotation_cases A theta HA Hang) as [[E _]|(_ & w & Hn & HW)]; [lra|].
  assert (Hw' : PI - 6 / 100000000 < v3norm w < PI) by (rewrite Hn; lra).
  destruct (ln_window_good w Hw') as (u & E & Hu & Hd).
  { intros (T1 & T2 & T3). apply Ht. rewrite <- HW. assert (c2p := rodx_c2_pos w ltac:(lra)). unfold rodx.
    assert (Hcc : (1 - cos (v3norm w)) / (v3norm w * v3norm w) * v3sqn w = 1 - cos (v3norm w)) by (rewrite <- v3norm_sq; field; lra).
    destruct (window_trig _ Hw') as [_ Cs]. pose proof PI_4.
    assert (Hc4 : (1 - cos (v3norm w)) / (v3norm w * v3norm w) <= 1 / 3).
    { apply Rmult_le_reg_r with (v3norm w * v3norm w); [nra|]. unfold Rdiv at 1. rewrite Rmult_assoc, Rinv_l, Rmult_1_r by nra. nra. }
    set (cc := cos (v3norm w)) in *.
    set (c2 := (1 - cc) / _) in *. set (c1 := sin _ / _). clearbody c1 c2 cc. destruct w as [x y z]. cbn [vx vy vz] in *.
    replace (a00 (rod c1 c2 (mkV3 x y z))) with (1 - c2 * (y * y) - c2 * (z * z)) by (unfold rod, hat3; lin_unfold; ring).
    replace (a11 (rod c1 c2 (mkV3 x y z))) with (1 - c2 * (x * x) - c2 * (z * z)) by (unfold rod, hat3; lin_unfold; ring).
    replace (a22 (rod c1 c2 (mkV3 x y z))) with (1 - c2 * (x * x) - c2 * (y * y)) by (unfold rod, hat3; lin_unfold; ring).
    split; [rewrite T1; ring|]. assert (c2 * (z * z) < c2 * (x * x)) by (apply Rmult_lt_compat_l; lra). split; [lra|].
    unfold v3sqn, v3dot in Hcc; cbn [vx vy vz] in Hcc.
    assert (z * z < 1 / 100000000).
    { replace (z * z) with (Rabs z * Rabs z) by (rewrite <- Rabs_mult, Rabs_right; nra). pose proof (Rabs_pos z). nra. }
    assert (c2 * (z * z) <= 1 / 3 * (1 / 100000000)) by (apply Rmult_le_compat; nra). lra. }
  exists w, u. rewrite <- HW at 2. auto.
Qed.
Lemma exp_ln_near_pi A theta : rotation A -> rotation_angle A theta -> PI - 6 / 100000000 < theta < PI ->
  ~ (a00 A = a11 A /\ a22 A < a00 A /\ a22 A < -1 + 1 / 100000000) ->
  m3_within (3 / 10000000) (m3sub (so3_exp (fst (so3_ln A))) A) /\ snd (so3_ln A) = PI.
Proof.
  intros HA Hang Hw Ht. pose proof PI_gt_3. destruct (exp_ln_window A theta HA Hang Hw Ht) as (w & u & Hn & HW & E & Hu & Hd).
  rewrite E. cbn [fst snd]. split; auto. change (so3_exp (hat3 u)) with (so3_of_vec u). rewrite so3_of_vec_rodx by lra.
  rewrite <- HW. apply within_of_app. intros v.
  replace (m3app (m3sub (rodx u) (rodx w)) v) with (v3sub (m3app (rodx u) v) (m3app (rodx w) v)) by (generalize (rodx u), (rodx w); lina).
  rewrite v3norm_sub_sym. apply rodx_window; auto. rewrite Hn; auto.
Qed.
Lemma regenerate_near_pi T theta : rigid T -> rotation_angle (mR T) theta -> PI - 6 / 100000000 < theta < PI ->
  ~ (a00 (mR T) = a11 (mR T) /\ a22 (mR T) < a00 (mR T) /\ a22 (mR T) < -1 + 1 / 100000000) ->
  rigid (se3_exp (se3_ln T)) /\ rotation_angle (mR (se3_exp (se3_ln T))) PI /\
  m3_within (3 / 10000000) (m3sub (mR (se3_exp (se3_ln T))) (mR T)) /\ mt (se3_exp (se3_ln T)) = mt T.
Proof.
  intros HT Hang Hw Ht. pose proof PI_gt_3.
  pose proof (exp_ln_near_pi _ _ (proj1 HT) Hang Hw Ht) as [B _].
  destruct (exp_ln_window _ theta (proj1 HT) Hang Hw Ht) as (w & u & Hn & HW & E & Hu & Hd).
  change (se3_exp (se3_ln T)) with (se3_regenerate T). rewrite (se3_regenerate_block T u PI E).
  rewrite E in B. cbn [fst] in B. change (so3_exp (hat3 u)) with (so3_of_vec u) in B.
  rewrite <- Hu. destruct (V_Vinv_exact u) as [EV _]; [lra|]. rewrite EV, m3app_id.
  cbn [mR mt mb mc se3_of_Rt]. rewrite so3_of_vec_rodx in * by lra. split; [split; [apply rodx_rotation; lra|split; reflexivity]|].
  split; [|split; auto]. split; [rewrite Hu; lra|]. assert (X := rodx_tr u ltac:(lra)). lra.
Qed.
Lemma se3_ln_exp_near_pi w v : PI - 6 / 100000000 < v3norm w < PI ->
  ~ (vx w * vx w = vy w * vy w /\ vz w * vz w < vx w * vx w /\ Rabs (vz w) < 1 / 10000) ->
  let xi' := se3_ln_vee (se3_of_vec (mkV6 w v)) in
  v3norm (v3sub (v6w xi') w) <= 7 / 100000000 /\ v3norm (v3sub (v6v xi') v) <= 1 / 1000000 * v3norm v.
Proof.
  intros Hw Ht xi'. pose proof PI_gt_3. destruct (ln_window_good w Hw Ht) as (u & E & Hu & Hd).
  unfold xi'. rewrite se3_of_vec_block. cbn [v6w v6v].
  rewrite (se3_ln_vee_block _ u PI) by (cbn [mR se3_of_Rt]; rewrite so3_of_vec_rodx by lra; exact E).
  cbn [v6w v6v mt se3_of_Rt]. split; [rewrite v3norm_sub_sym; auto|].
  destruct (V_Vinv_exact u) as [_ EV]; [lra|]. rewrite Hu in EV.
  assert (Ev : v = m3app (rod (- (1 / 2)) (se3_ln_k1 PI) u) (m3app (Vmat u) v)) by (rewrite <- m3app_mul, EV, m3app_id; reflexivity).
  rewrite Ev at 2.
  replace (v3sub (m3app (rod (- (1 / 2)) (se3_ln_k1 PI) u) (m3app (Vmat w) v)) (m3app (rod (- (1 / 2)) (se3_ln_k1 PI) u) (m3app (Vmat u) v)))
    with (m3app (rod (- (1 / 2)) (se3_ln_k1 PI) u) (v3sub (m3app (Vmat w) v) (m3app (Vmat u) v)))
    by (generalize (rod (- (1 / 2)) (se3_ln_k1 PI) u), (m3app (Vmat w) v), (m3app (Vmat u) v); lina).
  eapply Rle_trans; [apply Vinv_pi_norm; auto|].
  pose proof (V_window w u Hw Hu Hd v). pose proof (v3norm_nonneg v). lra.
Qed.
