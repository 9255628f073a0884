(** Proofs about SO3::exp, hat3, vee3 and the rotation group. *)
Require Import Reals Lra Psatz.
From Coquelicot Require Import Coquelicot.
From Verif Require Import Lin LinFacts SO3 SpecGeom.
Local Open Scope R_scope.

Ltac geo_unfold := cbv [hat3 vee3 orthogonal skew]; lin_unfold.
Ltac geo := intros; lin_destruct; geo_unfold; lin_split; ring.

Lemma Rltb_true x y : Rltb x y = true <-> x < y.
Proof. unfold Rltb; destruct (Rlt_dec x y); split; intros; auto; try discriminate; contradiction. Qed.
Lemma Rltb_false x y : Rltb x y = false <-> y <= x.
Proof. unfold Rltb; destruct (Rlt_dec x y); split; intros; auto; try discriminate; lra. Qed.
Lemma Rltb_lt x y : x < y -> Rltb x y = true. Proof. apply Rltb_true. Qed.
Lemma Rltb_ge x y : y <= x -> Rltb x y = false. Proof. apply Rltb_false. Qed.

(** ** hat / vee *)
Lemma vee3_hat3 w : vee3 (hat3 w) = w. Proof. geo. Qed.
Lemma hat3_vee3 W : skew W -> hat3 (vee3 W) = W.
Proof.
  destruct W; unfold skew; intros H. lin_unfold_in H. injection H; intros.
  geo_unfold. apply m3_eq; lra.
Qed.
Lemma hat3_skew w : skew (hat3 w). Proof. geo. Qed.
Lemma hat3_cross a b : m3app (hat3 a) b = v3cross a b. Proof. geo. Qed.
Lemma hat3_sq w : m3mul (hat3 w) (hat3 w) = m3sub (m3outer w w) (m3scal (v3sqn w) m3id).
Proof. geo. Qed.
Lemma hat3_cube w : m3mul (hat3 w) (m3mul (hat3 w) (hat3 w)) = m3scal (- v3sqn w) (hat3 w).
Proof. geo. Qed.
Lemma hat3_scal k w : hat3 (v3scal k w) = m3scal k (hat3 w). Proof. geo. Qed.
Lemma hat3_inj u v : hat3 u = hat3 v -> u = v.
Proof. intros H; rewrite <- (vee3_hat3 u), <- (vee3_hat3 v), H; reflexivity. Qed.

(** ** Rodrigues form *)
Definition rod (c1 c2 : R) (w : V3) : M3 :=
  m3add (m3add m3id (m3scal c1 (hat3 w))) (m3mul (m3scal c2 (hat3 w)) (hat3 w)).

Lemma so3_of_vec_rod w :
  so3_of_vec w = rod (so3_exp_c1 (v3norm w) (v3sqn w)) (so3_exp_c2 (v3norm w) (v3sqn w)) w.
Proof. unfold so3_of_vec, so3_exp, rod; cbv zeta; rewrite vee3_hat3; reflexivity. Qed.

Lemma rod_orth c1 c2 w :
  m3mul (m3tr (rod c1 c2 w)) (rod c1 c2 w) =
  m3add m3id (m3scal (2 * c2 - c1 * c1 - c2 * c2 * v3sqn w) (m3mul (hat3 w) (hat3 w))).
Proof. unfold rod; geo. Qed.
Lemma rod_det c1 c2 w :
  m3det (rod c1 c2 w) = 1 - v3sqn w * (2 * c2 - c1 * c1 - c2 * c2 * v3sqn w).
Proof. unfold rod; geo. Qed.
Lemma rod_tr c1 c2 w : m3tr (rod c1 c2 w) = rod (- c1) c2 w.
Proof. unfold rod; geo. Qed.
Lemma rod_trace c1 c2 w : m3trace (rod c1 c2 w) = 3 - 2 * c2 * v3sqn w.
Proof. unfold rod; geo. Qed.
Lemma rod_opp c1 c2 w : rod c1 c2 (v3opp w) = rod (- c1) c2 w.
Proof. unfold rod; geo. Qed.
Lemma rod_zero c1 c2 : rod c1 c2 v3zero = m3id.
Proof. unfold rod; geo. Qed.

Lemma sin2cos2 x : sin x * sin x + cos x * cos x = 1.
Proof. pose proof (sin2_cos2 x) as H; unfold Rsqr in H; exact H. Qed.

Lemma rod_exact_rotation c1 c2 w :
  2 * c2 = c1 * c1 + c2 * c2 * v3sqn w -> rotation (rod c1 c2 w).
Proof.
  intros H. split.
  - unfold orthogonal. rewrite rod_orth.
    replace (2 * c2 - c1 * c1 - c2 * c2 * v3sqn w) with 0 by lra. geo.
  - rewrite rod_det. replace (2 * c2 - c1 * c1 - c2 * c2 * v3sqn w) with 0 by lra. ring.
Qed.

Lemma norm_big_facts w : 1 / 100000 <= v3norm w ->
  0 < v3norm w /\ v3sqn w = v3norm w * v3norm w /\
  so3_exp_c1 (v3norm w) (v3sqn w) = sin (v3norm w) / v3norm w /\
  so3_exp_c2 (v3norm w) (v3sqn w) = (1 - cos (v3norm w)) / (v3norm w * v3norm w).
Proof.
  intros H. assert (0 < v3norm w) by lra.
  repeat split; auto.
  - symmetry; apply v3norm_sq.
  - unfold so3_exp_c1; rewrite Rltb_ge by lra; reflexivity.
  - unfold so3_exp_c2; rewrite Rltb_ge by lra; rewrite <- v3norm_sq; reflexivity.
Qed.

Lemma exact_coeffs o : o <> 0 ->
  2 * ((1 - cos o) / (o * o)) =
  sin o / o * (sin o / o) + (1 - cos o) / (o * o) * ((1 - cos o) / (o * o)) * (o * o).
Proof.
  intros H. pose proof (sin2cos2 o) as E.
  replace (sin o / o * (sin o / o)) with ((sin o * sin o) / (o * o)) by (field; auto).
  replace (sin o * sin o) with (1 - cos o * cos o) by lra.
  field; auto.
Qed.

Lemma so3_exp_rotation w : 1 / 100000 <= v3norm w -> rotation (so3_of_vec w).
Proof.
  intros H. destruct (norm_big_facts w H) as (Hp & Hs & H1 & H2).
  rewrite so3_of_vec_rod, H1, H2. apply rod_exact_rotation.
  rewrite Hs. apply exact_coeffs; lra.
Qed.
Lemma so3_exp_zero : so3_of_vec v3zero = m3id.
Proof. rewrite so3_of_vec_rod; apply rod_zero. Qed.
Lemma rotation_id : rotation m3id.
Proof. split; [unfold orthogonal; lin | lin]. Qed.

(** Small-angle branch: bounds *)
Lemma small_defect o2 : 0 <= o2 <= 1 / 10000000000 ->
  let c1 := 1 - o2 / 6 in let c2 := 1 / 2 - o2 / 24 in
  0 <= 2 * c2 - c1 * c1 - c2 * c2 * o2 <= o2 * o2 / 72.
Proof.
  intros H c1 c2.
  replace (2 * c2 - c1 * c1 - c2 * c2 * o2) with (o2 * o2 * (1 / 72 - o2 / 576)) by (unfold c1, c2; field).
  split; nra.
Qed.

Lemma hat3_sq_within w e : v3sqn w <= e -> m3_within e (m3mul (hat3 w) (hat3 w)).
Proof.
  destruct w as [x y z]. intros H. unfold v3sqn, v3dot in H; cbn in H.
  unfold m3_within; cbn.
  repeat split; apply Rabs_le; split; nra.
Qed.
Lemma m3_within_scal k e A : m3_within e A -> m3_within (Rabs k * e) (m3scal k A).
Proof.
  unfold m3_within; cbn; intros H; repeat (destruct H as [? H]).
  repeat split; rewrite Rabs_mult; apply Rmult_le_compat_l; auto; apply Rabs_pos.
Qed.
Lemma m3_within_le e e' A : e <= e' -> m3_within e A -> m3_within e' A.
Proof. unfold m3_within; intros L H; repeat (destruct H as [? H]); repeat split; lra. Qed.

Lemma small_o2 w : v3norm w < 1 / 100000 -> 0 <= v3sqn w < 1 / 10000000000.
Proof.
  intros H. pose proof (v3norm_nonneg w). rewrite <- v3norm_sq. nra.
Qed.

Lemma so3_exp_near_rotation w :
  m3_within (/ 10 ^ 30) (m3sub (m3mul (m3tr (so3_of_vec w)) (so3_of_vec w)) m3id) /\
  Rabs (m3det (so3_of_vec w) - 1) <= / 10 ^ 30.
Proof.
  destruct (Rlt_dec (v3norm w) (1 / 100000)) as [Hs|Hb].
  - rewrite so3_of_vec_rod. pose proof (small_o2 w Hs) as Ho2.
    unfold so3_exp_c1, so3_exp_c2. rewrite (Rltb_lt _ _ Hs).
    pose proof (small_defect (v3sqn w)) as D. cbv zeta in D.
    set (k := 2 * (1 / 2 - v3sqn w / 24) - (1 - v3sqn w / 6) * (1 - v3sqn w / 6) -
        (1 / 2 - v3sqn w / 24) * (1 / 2 - v3sqn w / 24) * v3sqn w) in *.
    assert (Hk : 0 <= k <= v3sqn w * v3sqn w / 72) by (apply D; lra).
    split.
    + rewrite rod_orth. fold k.
      match goal with |- m3_within _ ?M => replace M with (m3scal k (m3mul (hat3 w) (hat3 w))) by geo end.
      eapply m3_within_le; [| apply m3_within_scal, hat3_sq_within, Rle_refl].
      rewrite Rabs_right by lra. 
      assert (v3sqn w * v3sqn w <= / 10 ^ 20) by (simpl; nra).
      simpl in *. nra.
    + rewrite rod_det. fold k.
      replace (1 - v3sqn w * k - 1) with (- (v3sqn w * k)) by ring.
      rewrite Rabs_Ropp, Rabs_right by nra.
      assert (v3sqn w * v3sqn w <= / 10 ^ 20) by (simpl; nra).
      simpl in *. nra.
  - destruct (so3_exp_rotation w) as [Ho Hd]; [lra|].
    unfold orthogonal in Ho. rewrite Ho, Hd. split.
    + assert (0 < / 10 ^ 30) by (apply Rinv_0_lt_compat, pow_lt; lra).
      unfold m3_within; cbn - [pow]; repeat split; apply Rabs_le; lra.
    + assert (0 < / 10 ^ 30) by (apply Rinv_0_lt_compat, pow_lt; lra).
      apply Rabs_le; lra.
Qed.

(** ** The group *)
Lemma rotation_mul A B : rotation A -> rotation B -> rotation (m3mul A B).
Proof.
  intros [HA DA] [HB DB]; split.
  - unfold orthogonal in *. rewrite m3tr_mul, m3mul_assoc, <- (m3mul_assoc (m3tr A)), HA, m3mul_id_l; exact HB.
  - rewrite m3det_mul, DA, DB; ring.
Qed.
Lemma rotation_rinv A : rotation A -> m3mul A (m3tr A) = m3id.
Proof. intros [HA _]; apply m3_linv_rinv; exact HA. Qed.
Lemma rotation_linv A : rotation A -> m3mul (m3tr A) A = m3id.
Proof. intros [HA _]; exact HA. Qed.
Lemma rotation_tr A : rotation A -> rotation (m3tr A).
Proof.
  intros HA; split.
  - unfold orthogonal; rewrite m3tr_tr; apply rotation_rinv; auto.
  - rewrite m3det_tr; apply HA.
Qed.
Lemma rotation_norm A v : rotation A -> v3norm (m3app A v) = v3norm v.
Proof.
  intros HA. unfold v3norm. f_equal. unfold v3sqn.
  rewrite v3dot_app, <- m3app_mul, (rotation_linv A HA), m3app_id. reflexivity.
Qed.
Lemma rotation_sqn A v : rotation A -> v3sqn (m3app A v) = v3sqn v.
Proof.
  intros HA. unfold v3sqn.
  rewrite v3dot_app, <- m3app_mul, (rotation_linv A HA), m3app_id. reflexivity.
Qed.
(** adj(A) = A^T for a rotation *)
Lemma rotation_adj A : rotation A -> m3adj A = m3tr A.
Proof.
  intros HA.
  assert (E : m3mul (m3mul (m3adj A) A) (m3tr A) = m3tr A).
  { rewrite m3adj_l. destruct HA as [_ D]; rewrite D. rewrite m3scal_1. apply m3mul_id_l. }
  rewrite m3mul_assoc, rotation_rinv, m3mul_id_r in E by assumption. exact E.
Qed.

(** ** The exact exponential and its differential equation *)
Definition rot_curve (w : V3) (s : R) : M3 :=
  let o := v3norm w in rod (sin (s * o) / o) ((1 - cos (s * o)) / (o * o)) w.

Lemma so3_exp_curve w s : w <> v3zero -> s = 0 \/ 1 / 100000 <= v3norm (v3scal s w) ->
  so3_of_vec (v3scal s w) = rot_curve w s.
Proof.
  intros Hw Hs.
  assert (Ho : 0 < v3norm w).
  { destruct (Rle_lt_or_eq_dec _ _ (v3norm_nonneg w)) as [L|E]; auto.
    exfalso; apply Hw, v3norm_zero; auto. }
  destruct Hs as [->|Hs].
  - replace (v3scal 0 w) with v3zero by (symmetry; lin).
    rewrite so3_exp_zero. unfold rot_curve. cbv zeta. rewrite Rmult_0_l, sin_0, cos_0.
    unfold rod; geo_unfold. apply m3_eq; field; lra.
  - destruct (norm_big_facts _ Hs) as (Hp & Hsq & H1 & H2).
    rewrite so3_of_vec_rod, H1, H2, !v3norm_scal.
    rewrite v3norm_scal in Hp.
    assert (Hs0 : s <> 0) by (intros ->; rewrite Rabs_R0 in Hp; lra).
    unfold rot_curve. cbv zeta. unfold rod. rewrite hat3_scal.
    assert (E1 : sin (Rabs s * v3norm w) / (Rabs s * v3norm w) * s = sin (s * v3norm w) / v3norm w).
    { unfold Rabs; destruct (Rcase_abs s).
      - replace (- s * v3norm w) with (- (s * v3norm w)) by ring. rewrite sin_neg. field; lra.
      - field; lra. }
    assert (E2 : (1 - cos (Rabs s * v3norm w)) / (Rabs s * v3norm w * (Rabs s * v3norm w)) * (s * s)
                 = (1 - cos (s * v3norm w)) / (v3norm w * v3norm w)).
    { unfold Rabs; destruct (Rcase_abs s).
      - replace (- s * v3norm w) with (- (s * v3norm w)) by ring. rewrite cos_neg. field; lra.
      - field; lra. }
    rewrite <- E1, <- E2.
    set (c1 := sin (Rabs s * v3norm w) / (Rabs s * v3norm w)).
    set (c2 := (1 - cos (Rabs s * v3norm w)) / (Rabs s * v3norm w * (Rabs s * v3norm w))).
    clearbody c1 c2. geo.
Qed.

Lemma rod_mul a1 a2 b1 b2 w :
  m3mul (rod a1 a2 w) (rod b1 b2 w) =
  rod (a1 + b1 - (a1 * b2 + a2 * b1) * v3sqn w) (a2 + b2 + a1 * b1 - a2 * b2 * v3sqn w) w.
Proof. unfold rod; geo. Qed.

Lemma rot_curve_add w a b : w <> v3zero ->
  m3mul (rot_curve w a) (rot_curve w b) = rot_curve w (a + b).
Proof.
  intros Hw.
  assert (Ho : 0 < v3norm w).
  { destruct (Rle_lt_or_eq_dec _ _ (v3norm_nonneg w)) as [L|E]; auto.
    exfalso; apply Hw, v3norm_zero; auto. }
  unfold rot_curve; cbv zeta. rewrite rod_mul, <- v3norm_sq.
  set (o := v3norm w) in *.
  replace ((a + b) * o) with (a * o + b * o) by ring. rewrite sin_plus, cos_plus.
  f_equal; field; lra.
Qed.

Ltac der1 :=
  apply is_derive_Reals; auto_derive; [ repeat split; try lra; auto | ].

Lemma rot_curve_ode w : w <> v3zero -> is_exp_curve3 (hat3 w) (rot_curve w).
Proof.
  intros Hw.
  assert (Ho : 0 < v3norm w).
  { destruct (Rle_lt_or_eq_dec _ _ (v3norm_nonneg w)) as [L|E]; auto.
    exfalso; apply Hw, v3norm_zero; auto. }
  split.
  - unfold rot_curve; cbv zeta. rewrite Rmult_0_l, sin_0, cos_0.
    unfold rod; geo_unfold. apply m3_eq; field; lra.
  - intros s.
    assert (E : m3mul (hat3 w) (rot_curve w s) =
                m3add (m3scal (cos (s * v3norm w)) (hat3 w))
                      (m3scal (sin (s * v3norm w) / v3norm w) (m3mul (hat3 w) (hat3 w)))).
    { unfold rot_curve, rod; cbv zeta.
      assert (X : forall c1 c2, m3mul (hat3 w)
         (m3add (m3add m3id (m3scal c1 (hat3 w))) (m3mul (m3scal c2 (hat3 w)) (hat3 w)))
         = m3add (m3scal (1 - c2 * v3sqn w) (hat3 w)) (m3scal c1 (m3mul (hat3 w) (hat3 w)))) by geo.
      rewrite X, <- v3norm_sq. f_equal. f_equal. field; lra. }
    rewrite E. unfold rot_curve, rod; cbv zeta.
    set (o := v3norm w) in *. clearbody o. clear E.
    destruct w as [x y z]. unfold m3_derivative; cbn.
    repeat split; der1; field; lra.
Qed.
