(** Proofs: SE3::ln against SE3::exp, regenerate, distances. *)
Require Import Reals Lra Psatz Bool.
From Verif Require Import Lin LinFacts SO3 SE3 SpecGeom SO3Exp SO3ExpTrue TrigBounds SO3Ln SO3Misc SO3Near SO3Dist SE3Alg SE3Exp.
Local Open Scope R_scope.

Lemma Rabs_le_inv x y : Rabs x <= y -> - y <= x <= y.
Proof. intros H. unfold Rabs in H. destruct (Rcase_abs x); lra. Qed.

(** V^-1 of the code, as a rod *)
Lemma se3_ln_block T w o : so3_ln (mR T) = (hat3 w, o) ->
  se3_ln T = mkM4 (hat3 w) (m3app (rod (- (1/2)) (se3_ln_k1 o) w) (mt T)) v3zero 0.
Proof.
  intros E. unfold se3_ln. rewrite E. f_equal. f_equal. unfold rod.
  generalize (se3_ln_k1 o), (hat3 w). lin.
Qed.
Lemma se3_ln_vee_block T w o : so3_ln (mR T) = (hat3 w, o) ->
  se3_ln_vee T = mkV6 w (m3app (rod (- (1/2)) (se3_ln_k1 o) w) (mt T)).
Proof.
  intros E. unfold se3_ln_vee. rewrite (se3_ln_block T w o E). unfold vee6; cbn [mR mt].
  set (u := m3app _ _). clearbody u. destruct u, w; cbn. f_equal; apply v3_eq; ring.
Qed.
Lemma se3_exp_alg w v : se3_exp (mkM4 (hat3 w) v v3zero 0) = se3_of_vec (mkV6 w v).
Proof. unfold se3_of_vec. rewrite hat6_block. reflexivity. Qed.
Lemma se3_regenerate_block T w o : so3_ln (mR T) = (hat3 w, o) ->
  se3_regenerate T = se3_of_Rt (so3_of_vec w) (m3app (m3mul (Vmat w) (rod (- (1/2)) (se3_ln_k1 o) w)) (mt T)).
Proof.
  intros E. unfold se3_regenerate. rewrite (se3_ln_block T w o E), se3_exp_alg, se3_of_vec_block.
  cbn [v6w v6v]. rewrite m3app_mul. reflexivity.
Qed.

(** exact inverse *)
Lemma k1_exact o : 5 / 1000 < o -> o <= PI -> 
  va o - 1 / 2 - va o * se3_ln_k1 o * (o * o) + vb o * (o * o) / 2 = 0 /\
  vb o + se3_ln_k1 o - va o / 2 - vb o * se3_ln_k1 o * (o * o) = 0.
Proof.
  intros H Hpi. unfold se3_ln_k1. rewrite Rltb_lt by auto. cbv zeta. unfold va, vb.
  assert (C : cos o < 1).
  { rewrite <- cos_0. apply cos_decreasing_1; lra. }
  pose proof (sin2cos2 o) as S. split.
  - field. lra.
  - set (s := sin o) in *. set (c := cos o) in *. clearbody s c.
    replace ((o - s) / (o * o * o) + 1 / o / o * (1 - 1 / 2 * s / ((1 - c) / o)) - (1 - c) / (o * o) / 2 -
      (o - s) / (o * o * o) * (1 / o / o * (1 - 1 / 2 * s / ((1 - c) / o))) * (o * o))
    with ((- (s * s) + (1 - c) * (1 + c)) / (2 * (1 - c) * (o * o))) by (field; lra).
    replace (s * s) with (1 - c * c) by lra. field. lra.
Qed.
Lemma V_Vinv_exact w : 5 / 1000 < v3norm w <= PI ->
  m3mul (Vmat w) (rod (- (1/2)) (se3_ln_k1 (v3norm w)) w) = m3id /\
  m3mul (rod (- (1/2)) (se3_ln_k1 (v3norm w)) w) (Vmat w) = m3id.
Proof.
  intros H. destruct (k1_exact (v3norm w)) as [K1 K2]; try lra.
  assert (Z : forall a b, a = 0 -> b = 0 -> rod a b w = m3id) by (intros a b -> ->; unfold rod; geo).
  rewrite Vmat_exact by lra. unfold Vx. rewrite !rod_mul, <- v3norm_sq. split; apply Z; lra.
Qed.

(** ** ln(exp(xi)) *)
Lemma se3_ln_exp_gen w v o : so3_ln (so3_of_vec w) = (hat3 w, o) ->
  se3_ln_vee (se3_of_vec (mkV6 w v)) = mkV6 w (m3app (m3mul (rod (- (1/2)) (se3_ln_k1 o) w) (Vmat w)) v).
Proof.
  intros E. rewrite se3_of_vec_block. cbn [v6w v6v].
  rewrite (se3_ln_vee_block _ w o); [|exact E]. cbn [mt se3_of_Rt]. rewrite m3app_mul. reflexivity.
Qed.
Lemma se3_ln_exp w v : 5 / 1000 < v3norm w <= PI - 6 / 100000000 ->
  ~ (bad_axis w /\ PI / 2 <= v3norm w) ->
  se3_ln_vee (se3_of_vec (mkV6 w v)) = mkV6 w v.
Proof.
  intros H HB. rewrite (se3_ln_exp_gen w v (v3norm w)) by (apply ln_exp; auto; lra).
  destruct (V_Vinv_exact w) as [_ E]; [lra|]. rewrite E, m3app_id. reflexivity.
Qed.
Lemma ln_id : so3_ln m3id = (hat3 v3zero, 0).
Proof. pose proof ln_exp_zero as L. rewrite so3_exp_zero in L. rewrite L. f_equal. unfold hat3; lin. Qed.
Lemma se3_ln_exp_zero v : se3_ln_vee (se3_of_vec (mkV6 v3zero v)) = mkV6 v3zero v.
Proof.
  rewrite (se3_ln_exp_gen v3zero v 0).
  - rewrite Vmat_zero, rod_zero, m3mul_id_l, m3app_id. reflexivity.
  - rewrite so3_exp_zero. apply ln_id.
Qed.
Lemma se3_ln_exp_bad w v : bad_axis w -> PI / 2 <= v3norm w <= PI - 6 / 100000000 ->
  se3_ln_vee (se3_of_vec (mkV6 w v)) = mkV6 v3zero (m3app (Vmat w) v).
Proof.
  intros HB H. rewrite se3_of_vec_block. cbn [v6w v6v].
  rewrite (se3_ln_vee_block _ v3zero (v3norm w)).
  - cbn [mt se3_of_Rt]. rewrite rod_zero, m3app_id. reflexivity.
  - cbn [mR se3_of_Rt]. rewrite (ln_exp_bad w HB H). f_equal. unfold hat3; lin.
Qed.

(** ** small angles *)
Lemma rod_prod_small w v c2 c3 h k e : 
  e = 1 / 1000000000000 ->
  v3norm w <= 5 / 1000 ->
  Rabs (c2 - (1 / 2 - v3sqn w / 24)) <= e -> Rabs (c3 - (1 / 6 - v3sqn w / 120)) <= e ->
  Rabs (h - 1 / 2) <= e -> Rabs (k - (1 / 12 + v3sqn w / 720)) <= e ->
  v3norm (v3sub (m3app (m3mul (rod c2 c3 w) (rod (- h) k w)) v) v) <= / 10 ^ 13 * v3norm v.
Proof.
  intros Ee Hw H2 H3 Hh Hk. rewrite rod_mul, rod_app.
  replace (v3sub (v3add v _) v) with
   (v3add (v3scal (c2 + - h - (c2 * k + c3 * - h) * v3sqn w) (v3cross w v))
          (v3scal (c3 + k + c2 * - h - c3 * k * v3sqn w) (v3cross w (v3cross w v))))
   by (generalize (c2 + - h - (c2 * k + c3 * - h) * v3sqn w), (c3 + k + c2 * - h - c3 * k * v3sqn w), (v3cross w (v3cross w v)), (v3cross w v); lin).
  pose proof (v3norm_nonneg w) as Hn. pose proof (v3norm_nonneg v) as Hv.
  rewrite <- v3norm_sq in *. set (o := v3norm w) in *. set (q := o * o) in *.
  assert (Q : 0 <= q <= 25 / 1000000) by (unfold q; nra).
  apply Rabs_le_inv in H2, H3, Hh, Hk.
  set (d2 := c2 - (1 / 2 - q / 24)) in *. set (d3 := c3 - (1 / 6 - q / 120)) in *.
  set (dh := h - 1 / 2) in *. set (dk := k - (1 / 12 + q / 720)) in *.
  assert (E2 : c2 = 1 / 2 - q / 24 + d2) by (unfold d2; ring).
  assert (E3 : c3 = 1 / 6 - q / 120 + d3) by (unfold d3; ring).
  assert (Eh : h = 1 / 2 + dh) by (unfold dh; ring).
  assert (Ek : k = 1 / 12 + q / 720 + dk) by (unfold dk; ring).
  assert (Eq : o * o = q) by reflexivity. clearbody d2 d3 dh dk q.
  assert (Q2 : 0 <= q * q <= 625 / 1000000000000) by nra.
  assert (Q3 : 0 <= q * (q * q) <= 1 / 10000000000000) by nra.
  assert (Pe : 0 < e < 1 / 100000000000) by (subst e; lra).
  assert (M : forall a b A B, - A <= a <= A -> - B <= b <= B -> 0 <= A -> 0 <= B -> - (A * B) <= a * b <= A * B).
  { intros a b A B Ha Hb PA PB. apply Rabs_le_inv. rewrite Rabs_mult.
    apply Rmult_le_compat; try apply Rabs_pos; apply Rabs_le; lra. }
  assert (B1 : Rabs (c2 + - h - (c2 * k + c3 * - h) * q) <= 10 * e).
  { replace (c2 + - h - (c2 * k + c3 * - h) * q) with
     (d2 * (1 - (1 / 12 + q / 720) * q) - dh * (1 - (1 / 6 - q / 120) * q) - (q * q) / 720 + q * (q * q) / 17280
       - (1 / 2 - q / 24) * dk * q - d2 * dk * q + d3 * (1 / 2) * q + d3 * dh * q)
     by (subst c2 c3 h k; field).
    assert (T1 : - (e * 1) <= d2 * (1 - (1 / 12 + q / 720) * q) <= e * 1) by (apply M; lra).
    assert (T2 : - (e * 2) <= dh * (1 - (1 / 6 - q / 120) * q) <= e * 2) by (apply M; lra).
    assert (T3 : - ((1 * e) * 1) <= (1 / 2 - q / 24) * dk * q <= (1 * e) * 1) by (apply M; [apply M| | |]; lra).
    assert (T4 : - ((1 * e) * 1) <= d2 * dk * q <= (1 * e) * 1) by (apply M; [apply M| | |]; lra).
    assert (T5 : - ((e * 1) * 1) <= d3 * (1 / 2) * q <= (e * 1) * 1) by (apply M; [apply M| | |]; lra).
    assert (T6 : - ((e * 1) * 1) <= d3 * dh * q <= (e * 1) * 1) by (apply M; [apply M| | |]; lra).
    apply Rabs_le. lra. }
  assert (B2 : Rabs (c3 + k + c2 * - h - c3 * k * q) <= 1 / 10000000000).
  { replace (c3 + k + c2 * - h - c3 * k * q) with
     (d3 + dk - d2 / 2 - (1 / 2 - q / 24) * dh - d2 * dh - (1 / 6 - q / 120) * dk * q - d3 * (1 / 12 + q / 720) * q - d3 * dk * q
      + (1 / 1440 - 1 / 4320) * (q * q) + q * (q * q) / 86400)
     by (subst c2 c3 h k; field).
    assert (T1 : - (1 * e) <= (1 / 2 - q / 24) * dh <= 1 * e) by (apply M; lra).
    assert (T2 : - (1 * e) <= d2 * dh <= 1 * e) by (apply M; lra).
    assert (T3 : - ((1 * e) * 1) <= (1 / 6 - q / 120) * dk * q <= (1 * e) * 1) by (apply M; [apply M| | |]; lra).
    assert (T4 : - ((e * 1) * 1) <= d3 * (1 / 12 + q / 720) * q <= (e * 1) * 1) by (apply M; [apply M| | |]; lra).
    assert (T5 : - ((e * 1) * 1) <= d3 * dk * q <= (e * 1) * 1) by (apply M; [apply M| | |]; lra).
    apply Rabs_le. lra. }
  eapply Rle_trans; [apply (lincomb_norm _ _ w v _ _ B1 B2)|]. apply Rmult_le_compat_r; auto.
  fold o. rewrite Eq. subst e. simpl. lra.
Qed.

Lemma Vmat_small_coeffs w : 0 < v3norm w <= 5 / 1000 ->
  exists c2 c3, Vmat w = rod c2 c3 w /\ Rabs (c2 - (1 / 2 - v3sqn w / 24)) <= 1 / 1000000000000 /\
     Rabs (c3 - (1 / 6 - v3sqn w / 120)) <= 1 / 1000000000000.
Proof.
  intros H. rewrite <- v3norm_sq. set (o := v3norm w) in *.
  destruct (Rlt_dec (1 / 1000) o) as [B|S].
  - exists (va o), (vb o). split; [apply Vmat_exact; auto|].
    pose proof (va_bounds o ltac:(lra)) as A. pose proof (vb_bounds o ltac:(lra)) as Bb.
    assert (Q : 0 < o * o <= 25 / 1000000) by nra.
    assert (Q2 : 0 < o ^ 4 <= 625 / 1000000000000) by (simpl; nra).
    split; apply Rabs_le; lra.
  - unfold Vmat, se3_exp_c2, se3_exp_c3. fold o. rewrite Rltb_ge by lra.
    do 2 eexists. split; [reflexivity|]. rewrite <- v3norm_sq. fold o.
    split; rewrite Rminus_eq_0, Rabs_R0; lra.
Qed.

Lemma ln_exp_small_form w : 0 < v3norm w < 1 / 100000 ->
  exists k p, so3_ln (so3_of_vec w) = (hat3 (v3scal k w), p) /\ - / 10 ^ 21 <= k - 1 <= 0 /\
    0 <= p <= v3norm w /\ 0 <= v3norm w * v3norm w - p * p <= 1 / 1000000000000000000000000000000.
Proof.
  intros H. pose proof PI_gt_3 as HPI. set (o := v3norm w) in *.
  rewrite so3_of_vec_rod. unfold so3_exp_c1, so3_exp_c2. fold o.
  rewrite (Rltb_lt o) by lra. rewrite <- v3norm_sq. fold o.
  set (q := o * o). assert (Q : 0 < q <= 1 / 10000000000) by (unfold q; nra).
  set (c1 := 1 - q / 6). set (c2 := 1 / 2 - q / 24).
  set (c := 1 - q / 2 + q * q / 24).
  assert (Etr : (m3trace (rod c1 c2 w) - 1) * (1 / 2) = c).
  { rewrite rod_trace, <- v3norm_sq. fold o. unfold c2, c, q. field. }
  assert (Q2 : 0 < q * q <= q / 10000000000) by nra.
  assert (Hc : -1 <= c <= 1) by (unfold c; lra).
  destruct (acos_facts c Hc) as [Hp Ecp]. set (p := acos c) in *.
  assert (Hpo : p <= o).
  { destruct (Rle_lt_dec p o); auto. exfalso.
    assert (cos p < cos o) by (apply cos_decreasing_1; lra).
    pose proof (cos_taylor4 o ltac:(lra)) as [_ U]. 
    replace (1 - o ^ 2 / 2 + o ^ 4 / 24) with c in U by (unfold c, q; field). lra. }
  exists ((1 + p * p / 6) * c1), p.
  split.
  { unfold so3_ln; cbv zeta. rewrite Etr. unfold acos_d.
    destruct (Rle_dec (-1) c); [|lra]. destruct (Rle_dec c 1); [|lra]. fold p.
    rewrite Rltb_lt by (unfold c; lra). rewrite Rltb_lt by lra.
    f_equal. rewrite rod_skew_part, hat3_scal, m3scal_scal. f_equal. field. }
  set (q' := p * p). assert (Q' : 0 <= q' <= q) by (unfold q', q; nra).
  pose proof (cos_taylor6 p ltac:(lra)) as L.
  replace (1 - p ^ 2 / 2 + p ^ 4 / 24 - p ^ 6 / 720) with (1 - q' / 2 + q' * q' / 24 - q' * q' * q' / 720) in L
    by (unfold q'; field).
  rewrite Ecp in L. unfold c in L.
  assert (D : (q - q') * (1 / 2 - (q + q') / 24) <= q' * q' * q' / 720) by lra.
  assert (D0 : (q - q') * (1 / 4) <= q' * q' * q' / 720).
  { eapply Rle_trans; [|exact D]. apply Rmult_le_compat_l; lra. }
  assert (T1 : q' * q' <= 1 / 100000000000000000000) by nra.
  assert (T2 : q' * q' * q' <= 1 / 1000000000000000000000000000000) by nra.
  assert (D1 : 0 <= q - q' <= 1 / 100000000000000000000000000000000) by lra.
  split.
  - unfold c1. assert (0 <= q' * q <= 1 / 100000000000000000000) by nra. simpl; lra.
  - lra.
Qed.

Lemma se3_ln_exp_small w v : 0 < v3norm w <= 5 / 1000 ->
  let xi' := se3_ln_vee (se3_of_vec (mkV6 w v)) in
  v3_within (/ 10 ^ 26) (v3sub (v6w xi') w) /\
  (1 / 100000 <= v3norm w -> v6w xi' = w) /\
  v3norm (v3sub (v6v xi') v) <= / 10 ^ 13 * v3norm v.
Proof.
  intros H. cbv zeta. destruct (Vmat_small_coeffs w H) as (c2 & c3 & EV & B2 & B3).
  pose proof PI_gt_3.
  destruct (Rlt_dec (v3norm w) (1 / 100000)) as [S|B].
  - split; [|split; [lra|]].
    { destruct (ln_exp_small w ltac:(lra)) as [L _]. destruct (ln_exp_small_form w ltac:(lra)) as (k & p & E & _).
      rewrite se3_of_vec_block. cbn [v6w v6v]. rewrite (se3_ln_vee_block (se3_of_Rt (so3_of_vec w) (m3app (Vmat w) v)) _ p E). cbn [v6w].
      unfold so3_ln_vee in L. rewrite E in L. cbn [fst] in L. rewrite vee3_hat3 in L. exact L. }
    destruct (ln_exp_small_form w ltac:(lra)) as (k & p & E & Hk & Hp & Hq).
    rewrite se3_of_vec_block. cbn [v6w v6v]. rewrite (se3_ln_vee_block (se3_of_Rt (so3_of_vec w) (m3app (Vmat w) v)) _ p E). cbn [v6v mt se3_of_Rt].
    rewrite rod_scal, EV, <- m3app_mul.
    set (k' := se3_ln_k1 p * (k * k)).
    replace (m3mul (rod (- (1 / 2) * k) k' w) (rod c2 c3 w)) with (m3mul (rod c2 c3 w) (rod (- (k / 2)) k' w)).
    2:{ rewrite !rod_mul. f_equal; field. }
    apply rod_prod_small with (e := 1 / 1000000000000); auto; try lra.
    + apply Rabs_le. simpl in Hk. lra.
    + unfold k', se3_ln_k1. rewrite Rltb_ge by lra. rewrite <- v3norm_sq. set (o := v3norm w) in *.
      assert (0 < o * o <= 1 / 10000000000) by nra. assert (0 <= p * p <= 1 / 10000000000) by nra.
      assert (Hkk : 1 - 2 * / 10 ^ 21 <= k * k <= 1) by (simpl in *; split; nra).
      assert (- (1 * (2 / 10 ^ 21)) <= (1 / 12 + p * p / 720) * (k * k - 1) <= 0).
      { split; simpl in *; nra. }
      apply Rabs_le. simpl in *; lra.
  - assert (E : so3_ln (so3_of_vec w) = (hat3 w, v3norm w)).
    { apply ln_exp; lra. }
    rewrite (se3_ln_exp_gen w v _ E). cbn [v6w v6v].
    split; [|split; [auto|]].
    + replace (v3sub w w) with v3zero by (symmetry; lin). unfold v3_within; cbn - [pow]. rewrite Rabs_R0.
      assert (0 < / 10 ^ 26) by (apply Rinv_0_lt_compat, pow_lt; lra). lra.
    + rewrite EV. replace (m3mul (rod (- (1 / 2)) (se3_ln_k1 (v3norm w)) w) (rod c2 c3 w))
        with (m3mul (rod c2 c3 w) (rod (- (1 / 2)) (se3_ln_k1 (v3norm w)) w)) by (rewrite !rod_mul; f_equal; ring).
      apply rod_prod_small with (e := 1 / 1000000000000); auto; try lra.
      * rewrite Rminus_eq_0, Rabs_R0; lra.
      * unfold se3_ln_k1. rewrite Rltb_ge by lra. rewrite v3norm_sq, Rminus_eq_0, Rabs_R0; lra.
Qed.

(** ** exp(ln(T)), i.e. regenerate *)
Lemma rotation_cases A theta : rotation A -> rotation_angle A theta ->
  (theta = 0 /\ A = m3id) \/ (0 < theta /\ exists w, v3norm w = theta /\ rodx w = A).
Proof.
  intros HA [Hth Htr]. pose proof PI_gt_3. destruct (Req_dec theta 0) as [E0|N0].
  { subst theta. rewrite cos_0 in Htr. left. split; auto. apply rotation_trace3; auto; lra. }
  right. split; [lra|].
  assert (HI : A <> m3id).
  { intros ->. assert (cos theta = 1) by (unfold m3trace, m3id in Htr; cbn in Htr; lra).
    assert (cos theta < 1); [|lra]. rewrite <- cos_0. apply cos_decreasing_1; lra. }
  destruct (rotation_rodx_exists A HA HI) as (w & Hw & Hwt & Hr).
  exists w. split; auto. apply cos_inj; lra.
Qed.
(** ln of any rotation outside the two windows: a vector along the axis *)
Lemma ln_good A theta : rotation A -> rotation_angle A theta ->
  1 / 100000 <= theta <= PI - 6 / 100000000 \/ theta = PI ->
  (theta < PI / 2 \/ (~ fixes A (mkV3 1 1 0) /\ ~ fixes A (mkV3 1 (-1) 0))) ->
  exists w, v3norm w = theta /\ rodx w = A /\ so3_ln A = (hat3 w, theta).
Proof.
  intros HA Hang Hr Hg. pose proof PI_gt_3. destruct (rotation_cases A theta HA Hang) as [[E _]|(Hp & w & Hn & HW)].
  { lra. }
  destruct Hang as [Hth Htr].
  destruct (Rlt_dec theta (PI / 2)) as [Hac|Hob].
  - exists w. split; auto. split; auto. rewrite <- HW, <- Hn. apply ln_rodx_acute; try lra.
    rewrite Hn. apply cos_gt_0; lra.
  - assert (HB : ~ bad_axis w).
    { intros B. apply (bad_axis_fixes w ltac:(lra)) in B. rewrite HW in B.
      destruct Hg as [?|[? ?]]; [lra|]. destruct B; contradiction. }
    destruct (ln_rodx_obtuse w) as (s & Hs & Hs1 & L); auto; try lra.
    { rewrite Hn; apply cos_le_0; lra. }
    exists (v3scal s w).
    assert (N : v3norm (v3scal s w) = theta) by (rewrite v3norm_scal, (Rabs_sign s Hs); lra).
    split; [exact N|]. split; [|rewrite <- HW, L, Hn; reflexivity].
    destruct (Rlt_dec theta PI) as [Hlt|Hge].
    + rewrite Hs1 by lra. rewrite <- HW. f_equal. lin.
    + assert (theta = PI) by lra. unfold rodx. rewrite N. rewrite rod_scal. rewrite <- HW. unfold rodx. rewrite Hn.
      subst theta. replace (v3norm w) with PI by lra. rewrite sin_PI. f_equal; [field; lra|].
      destruct Hs as [-> | ->]; ring.
Qed.
Lemma regenerate_exact T theta : rigid T -> rotation_angle (mR T) theta ->
  theta = 0 \/ 5 / 1000 < theta <= PI - 6 / 100000000 \/ theta = PI ->
  (theta < PI / 2 \/ (~ fixes (mR T) (mkV3 1 1 0) /\ ~ fixes (mR T) (mkV3 1 (-1) 0))) ->
  se3_exp (se3_ln T) = T.
Proof.
  intros HT Hang Hr Hg. pose proof PI_gt_3. change (se3_regenerate T = T).
  rewrite (rigid_form T HT) at 2.
  destruct (Req_dec theta 0) as [Z|NZ].
  - destruct (rotation_cases _ _ (proj1 HT) Hang) as [[_ E]|[? _]]; [|lra].
    rewrite (se3_regenerate_block T v3zero 0); [|rewrite E; apply ln_id].
    rewrite so3_exp_zero, Vmat_zero, rod_zero, m3mul_id_l, m3app_id, E. reflexivity.
  - destruct (ln_good (mR T) theta (proj1 HT) Hang) as (w & Hn & HW & L); auto; try lra.
    rewrite (se3_regenerate_block T w theta L). rewrite <- Hn.
    destruct (V_Vinv_exact w) as [E _]; [lra|]. rewrite E, m3app_id. f_equal.
    rewrite so3_of_vec_rodx by lra. exact HW.
Qed.
Lemma regenerate_small T theta : rigid T -> rotation_angle (mR T) theta -> 0 < theta <= 5 / 1000 ->
  m3_within (/ 10 ^ 24) (m3sub (mR (se3_exp (se3_ln T))) (mR T)) /\
  (1 / 100000 <= theta -> mR (se3_exp (se3_ln T)) = mR T) /\
  v3norm (v3sub (mt (se3_exp (se3_ln T))) (mt T)) <= / 10 ^ 13 * v3norm (mt T) /\
  mb (se3_exp (se3_ln T)) = v3zero /\ mc (se3_exp (se3_ln T)) = 1.
Proof.
  intros HT Hang Hr. pose proof PI_gt_3. change (se3_exp (se3_ln T)) with (se3_regenerate T).
  destruct (Rlt_dec theta (1 / 100000)) as [S|B].
  - destruct (rotation_cases _ _ (proj1 HT) Hang) as [[E _]|(_ & w & Hn & HW)]; [lra|].
    pose proof (ln_rodx_small w ltac:(lra)) as L. rewrite HW in L.
    destruct (exp_ln_small (mR T) w HW ltac:(lra)) as [EL _].
    rewrite L in EL. cbn [fst] in EL.
    rewrite (se3_regenerate_block T _ _ L). cbn [mR mt mb mc se3_of_Rt].
    split; [exact EL|]. split; [lra|]. split; [|split; reflexivity].
    pose proof (small_k (v3norm w) ltac:(lra)) as Hk.
    set (k := (1 + v3norm w * v3norm w / 6) * (sin (v3norm w) / v3norm w)) in *. set (u := v3scal k w).
    assert (Hu : v3norm u = k * v3norm w).
    { unfold u. rewrite v3norm_scal, Rabs_right; [reflexivity|]. simpl in Hk; lra. }
    assert (Hk1 : 1 - 1 / 100000000000000000000 <= k <= 1) by (simpl in Hk; lra).
    assert (Hu2 : 0 < v3norm u <= v3norm w) by (rewrite Hu; split; [apply Rmult_lt_0_compat; lra|]; assert (k * v3norm w <= 1 * v3norm w) by (apply Rmult_le_compat_r; lra); lra).
    destruct (Vmat_small_coeffs u ltac:(lra)) as (c2 & c3 & EV & B2 & B3).
    rewrite EV. apply rod_prod_small with (e := 1 / 1000000000000); auto; try lra.
    + rewrite Rminus_eq_0, Rabs_R0; lra.
    + unfold se3_ln_k1. rewrite Rltb_ge by lra. rewrite <- v3norm_sq.
      assert (0 <= v3norm w * v3norm w <= 1 / 10000000000) by (split; nra).
      assert (Eu : v3norm u * v3norm u = (k * k) * (v3norm w * v3norm w)) by (rewrite Hu; ring).
      assert (Hkk : 1 - 2 / 100000000000000000000 <= k * k <= 1) by (split; nra).
      assert (- (2 / 100000000000000000000) <= (k * k - 1) * (v3norm w * v3norm w) <= 0) by (split; nra).
      apply Rabs_le. lra.
  - destruct (ln_good (mR T) theta (proj1 HT) Hang) as (w & Hn & HW & L); auto; try lra.
    rewrite (se3_regenerate_block T w theta L). cbn [mR mt mb mc se3_of_Rt].
    assert (E : so3_of_vec w = mR T) by (rewrite so3_of_vec_rodx by lra; exact HW).
    rewrite E. split; [|split; [auto|split; [|split; reflexivity]]].
    + replace (m3sub _ _) with m3zero by (generalize (mR T); lin).
      unfold m3_within; cbn - [pow]. rewrite Rabs_R0. assert (0 < / 10 ^ 24) by (apply Rinv_0_lt_compat, pow_lt; lra).
      repeat split; lra.
    + destruct (Vmat_small_coeffs w ltac:(lra)) as (c2 & c3 & EV & B2 & B3).
      rewrite EV, <- Hn. apply rod_prod_small with (e := 1 / 1000000000000); auto; try lra.
      * rewrite Rminus_eq_0, Rabs_R0; lra.
      * unfold se3_ln_k1. rewrite Rltb_ge by lra. rewrite v3norm_sq, Rminus_eq_0, Rabs_R0; lra.
Qed.
(** on the defective axes the rotation is lost altogether *)
Lemma regenerate_half_turn t : se3_regenerate (se3_of_Rt half_turn_xy t) = se3_of_Rt m3id t.
Proof.
  rewrite (se3_regenerate_block _ v3zero PI).
  - cbn [mt se3_of_Rt]. rewrite so3_exp_zero, Vmat_zero, rod_zero, m3mul_id_l, m3app_id. reflexivity.
  - cbn [mR se3_of_Rt]. rewrite ln_half_turn_xy. f_equal. unfold hat3; lin.
Qed.

(** ** distances *)
Lemma v6norm_nonneg u : 0 <= v6norm u. Proof. apply sqrt_pos. Qed.
Lemma v6norm_parts u v : v3norm (v6w u) = v3norm (v6w v) -> v3norm (v6v u) = v3norm (v6v v) -> v6norm u = v6norm v.
Proof.
  intros H1 H2. unfold v6norm, v6dot. f_equal.
  change (v3sqn (v6w u) + v3sqn (v6v u) = v3sqn (v6w v) + v3sqn (v6v v)).
  rewrite <- !v3norm_sq, H1, H2. reflexivity.
Qed.
Lemma se3_distance_refl A : rigid A -> se3_distance A A = 0.
Proof.
  intros HA. unfold se3_distance, se3_mul. rewrite (rigid_rinv A HA).
  rewrite (se3_ln_vee_block m4id v3zero 0 ln_id). rewrite rod_zero, m3app_id.
  unfold v6norm. cbn. replace (v6dot (mkV6 v3zero v3zero) (mkV6 v3zero v3zero)) with 0 by (lin_unfold; ring).
  apply sqrt_0.
Qed.
Lemma se3_distance_right_inv A B C : rigid A -> rigid B -> rigid C ->
  se3_distance (se3_mul A C) (se3_mul B C) = se3_distance A B.
Proof.
  intros HA HB HC. unfold se3_distance, se3_mul. do 2 f_equal.
  rewrite se3_inv_mul, m4mul_assoc, <- (m4mul_assoc C) by auto. rewrite (rigid_rinv C HC), m4mul_id_l. reflexivity.
Qed.
(** ln of a rotation outside the window below pi, up to scaling of its axis *)
Lemma ln_axis A theta : rotation A -> rotation_angle A theta -> theta <= PI - 6 / 100000000 \/ theta = PI ->
  exists w k o, so3_ln A = (hat3 (v3scal k w), o) /\ (exists k', so3_ln (m3tr A) = (hat3 (v3scal k' w), o) /\ (k' = k \/ k' = - k)) /\
     (exists c1 c2, A = rod c1 c2 w).
Proof.
  intros HA Hang Hr. pose proof PI_gt_3.
  assert (HT : rotation (m3tr A)) by (apply rotation_tr; auto).
  destruct (rotation_cases A theta HA Hang) as [[_ E]|(Hp & w & Hn & HW)].
  { exists v3zero, 1, 0. rewrite E, m3tr_id. replace (v3scal 1 v3zero) with v3zero by (symmetry; lin).
    split; [apply ln_id|]. split.
    - exists 1. replace (v3scal 1 v3zero) with v3zero by (symmetry; lin). split; [apply ln_id | left; reflexivity].
    - exists 0, 0. symmetry; apply rod_zero. }
  assert (HWt : rodx (v3opp w) = m3tr A).
  { rewrite <- HW. unfold rodx. rewrite rod_tr, v3norm_opp, rod_opp. reflexivity. }
  assert (Hno : v3norm (v3opp w) = theta) by (rewrite v3norm_opp; auto).
  assert (Hop : forall k, v3scal k (v3opp w) = v3scal (- k) w) by (intros; lin).
  destruct Hang as [Hth Htr].
  assert (HR : exists c1 c2, A = rod c1 c2 w) by (do 2 eexists; rewrite <- HW; unfold rodx; reflexivity).
  destruct (Rlt_dec theta (1 / 100000)) as [S|B].
  - pose proof (ln_rodx_small w ltac:(lra)) as L1. pose proof (ln_rodx_small (v3opp w) ltac:(lra)) as L2.
    rewrite HW in L1. rewrite HWt, Hop in L2. rewrite !Hno in L2. rewrite !Hn in L1.
    do 3 eexists. split; [exact L1|]. split; [|exact HR].
    eexists. split; [exact L2|]. right; reflexivity.
  - destruct (Rlt_dec theta (PI / 2)) as [Hac|Hob].
    + pose proof (ln_rodx_acute w) as L1. pose proof (ln_rodx_acute (v3opp w)) as L2.
      rewrite HW in L1. rewrite HWt in L2. rewrite Hn in L1. rewrite Hno in L2.
      assert (0 < cos theta) by (apply cos_gt_0; lra).
      exists w, 1, theta. replace (v3scal 1 w) with w by (symmetry; lin).
      split; [apply L1; lra|]. split; [|exact HR]. exists (-1). replace (v3scal (-1) w) with (v3opp w) by lin.
      split; [apply L2; lra | right; ring].
    + assert (Hc : cos theta <= 0) by (apply cos_le_0; lra).
      assert (BO : bad_axis (v3opp w) <-> bad_axis w).
      { destruct w; unfold bad_axis; cbn. split; intros [? ?]; split; lra. }
      assert (D : bad_axis w \/ ~ bad_axis w).
      { unfold bad_axis. destruct (Req_dec (vx w * vx w) (vy w * vy w)), (Req_dec (vz w) 0); tauto. }
      destruct D as [D|D].
      * exists w, 0, theta. replace (hat3 (v3scal 0 w)) with m3zero by (unfold hat3; lin).
        split; [rewrite <- HW, <- Hn; apply ln_rodx_bad; auto; rewrite ?Hn; lra|]. split; [|exact HR].
        exists 0. replace (hat3 (v3scal 0 w)) with m3zero by (unfold hat3; lin). split; [|left; reflexivity].
        rewrite <- HWt, <- Hno. apply ln_rodx_bad; rewrite ?Hno; try lra. apply BO; auto.
      * destruct (ln_rodx_obtuse w) as (s & Hs & _ & L1); auto; rewrite ?Hn; try lra.
        destruct (ln_rodx_obtuse (v3opp w)) as (s' & Hs' & _ & L2); rewrite ?Hno; try lra.
        { intros X; apply D, BO; auto. }
        rewrite HW, Hn in L1. rewrite HWt, Hop, Hno in L2.
        exists w, s, theta. split; [exact L1|]. split; [|exact HR].
        exists (- s'). split; [exact L2|]. destruct Hs, Hs'; subst; [right|left|left|right]; ring.
Qed.
Lemma rod_normal c1 c2 w v : v3norm (m3app (rod c1 c2 w) v) = v3norm (m3app (rod (- c1) c2 w) v).
Proof.
  unfold v3norm. f_equal.
  assert (E : forall a b, v3sqn (m3app (rod a b w) v) = v3sqn v + (a * a - 2 * b + b * b * v3sqn w) * v3sqn (v3cross w v)).
  { intros. unfold rod. geo. }
  rewrite !E. ring.
Qed.
Lemma se3_distance_inv_norm T theta : rigid T -> rotation_angle (mR T) theta ->
  theta <= PI - 6 / 100000000 \/ theta = PI ->
  v6norm (se3_ln_vee (se3_inv T)) = v6norm (se3_ln_vee T).
Proof.
  intros HT Hang Hr. destruct (ln_axis _ _ (proj1 HT) Hang Hr) as (w & k & o & L1 & (k' & L2 & Hk') & (c1 & c2 & HA)).
  rewrite (se3_ln_vee_block T _ _ L1). rewrite (se3_ln_vee_block (se3_inv T) _ _ L2).
  assert (Kk : k' * k' = k * k) by (destruct Hk'; subst; ring).
  apply v6norm_parts; cbn [v6w v6v].
  - rewrite !v3norm_scal. f_equal. destruct Hk'; subst; rewrite ?Rabs_Ropp; reflexivity.
  - cbn [mt se3_inv]. set (t := mt T).
    replace (m3app (m3opp (m3tr (mR T))) t) with (v3opp (m3app (m3tr (mR T)) t)) by (generalize (mR T); lin).
    replace (m3app (rod (- (1 / 2)) (se3_ln_k1 o) (v3scal k' w)) (v3opp (m3app (m3tr (mR T)) t))) with
      (v3opp (m3app (rod (- (1 / 2)) (se3_ln_k1 o) (v3scal k' w)) (m3app (m3tr (mR T)) t)))
      by (generalize (rod (- (1 / 2)) (se3_ln_k1 o) (v3scal k' w)), (m3app (m3tr (mR T)) t); lin).
    rewrite v3norm_opp, !rod_scal, <- m3app_mul.
    assert (C : m3mul (rod (- (1 / 2) * k') (se3_ln_k1 o * (k' * k')) w) (m3tr (mR T)) =
                m3mul (m3tr (mR T)) (rod (- (1 / 2) * k') (se3_ln_k1 o * (k' * k')) w)).
    { rewrite HA, rod_tr, !rod_mul. f_equal; ring. }
    rewrite C, m3app_mul, rotation_norm by (apply rotation_tr, HT). rewrite Kk.
    destruct Hk' as [-> | ->]; [reflexivity|].
    rewrite rod_normal. f_equal. f_equal. f_equal. ring.
Qed.
Lemma se3_distance_sym A B theta : rigid A -> rigid B ->
  rotation_angle (m3mul (mR A) (m3tr (mR B))) theta -> theta <= PI - 6 / 100000000 \/ theta = PI ->
  se3_distance A B = se3_distance B A.
Proof.
  intros HA HB Hang Hr. unfold se3_distance, se3_mul.
  replace (m4mul B (se3_inv A)) with (se3_inv (m4mul A (se3_inv B))).
  - symmetry. apply se3_distance_inv_norm with theta; auto using rigid_mul, rigid_inv.
    rewrite (rigid_form A HA), (rigid_form B HB), inv_of_Rt, mul_of_Rt. exact Hang.
  - rewrite se3_inv_mul, se3_inv_inv by auto using rigid_inv. reflexivity.
Qed.
Lemma se3_distance_ge A B : rigid A -> rigid B -> se3_distance_rotation A B <= se3_distance A B.
Proof.
  intros HA HB. unfold se3_distance, se3_distance_rotation, se3_mul.
  set (T := m4mul A (se3_inv B)).
  assert (E : mR T = m3mul (mR A) (m3tr (mR B))).
  { unfold T. rewrite (rigid_form A HA), (rigid_form B HB), inv_of_Rt, mul_of_Rt. reflexivity. }
  rewrite <- E. unfold v6norm, v3norm. apply sqrt_le_1_alt.
  replace (so3_ln_vee (mR T)) with (v6w (se3_ln_vee T)).
  - unfold v6dot. change (v3dot (v6v (se3_ln_vee T)) (v6v (se3_ln_vee T))) with (v3sqn (v6v (se3_ln_vee T))).
    pose proof (v3sqn_nonneg (v6v (se3_ln_vee T))). unfold v3sqn at 1. lra.
  - unfold se3_ln_vee, se3_ln, so3_ln_vee. destruct (so3_ln (mR T)). reflexivity.
Qed.
Lemma se3_distance_zero A B : rigid A -> rigid B -> se3_distance A B = 0 ->
  A = B \/ fixes (m3mul (mR A) (m3tr (mR B))) (mkV3 1 1 0) \/ fixes (m3mul (mR A) (m3tr (mR B))) (mkV3 1 (-1) 0).
Proof.
  intros HA HB HD.
  assert (H0 : so3_distance (mR A) (mR B) = 0).
  { pose proof (se3_distance_ge A B HA HB) as G. rewrite HD in G.
    pose proof (so3_distance_nonneg (mR A) (mR B)).
    change (se3_distance_rotation A B) with (so3_distance (mR A) (mR B)) in G. lra. }
  destruct (so3_distance_zero _ _ (proj1 HA) (proj1 HB) H0) as [E|F]; [left|right; exact F].
  unfold se3_distance, se3_mul in HD.
  assert (T : m4mul A (se3_inv B) = se3_of_Rt m3id (v3sub (mt A) (mt B))).
  { rewrite (rigid_form A HA), (rigid_form B HB), inv_of_Rt, mul_of_Rt. cbn [mR mt se3_of_Rt]. rewrite E.
    rewrite (rotation_rinv _ (proj1 HB)). f_equal.
    replace (m3app (mR B) (v3opp (m3app (m3tr (mR B)) (mt B)))) with
      (v3opp (m3app (m3mul (mR B) (m3tr (mR B))) (mt B)))
      by (rewrite m3app_mul; generalize (m3app (m3tr (mR B)) (mt B)), (mR B); lin).
    rewrite (rotation_rinv _ (proj1 HB)), m3app_id. generalize (mt A), (mt B). lin. }
  rewrite T, (se3_ln_vee_block (se3_of_Rt m3id (v3sub (mt A) (mt B))) v3zero 0 ln_id), rod_zero, m3app_id in HD. cbn [mt se3_of_Rt] in HD.
  unfold v6norm in HD. apply sqrt_eq_0 in HD.
  2:{ unfold v6dot; cbn [v6w v6v]. pose proof (v3sqn_nonneg (v3sub (mt A) (mt B))) as P. unfold v3sqn in P.
      replace (v3dot v3zero v3zero) with 0 by lin. lra. }
  unfold v6dot in HD; cbn [v6w v6v] in HD. replace (v3dot v3zero v3zero) with 0 in HD by lin.
  rewrite Rplus_0_l in HD. change (v3sqn (v3sub (mt A) (mt B)) = 0) in HD. apply v3sqn_zero in HD.
  rewrite (rigid_form A HA), (rigid_form B HB), E. f_equal.
  revert HD. generalize (mt A), (mt B). intros [? ? ?] [? ? ?] Z. lin_unfold_in Z. injection Z; intros. apply v3_eq; lra.
Qed.
