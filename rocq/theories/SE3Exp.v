(** Proofs: SE3::exp against the 4x4 matrix exponential. *)
Require Import Reals Lra Psatz Bool.
From Coquelicot Require Import Coquelicot.
From Verif Require Import Lin LinFacts SO3 SE3 SpecGeom SO3Exp SO3ExpTrue TrigBounds SO3Ln SO3Misc SO3Near SO3Dist SE3Alg.
Local Open Scope R_scope.

(** exact coefficients of the left Jacobian V *)
Definition va (o : R) : R := (1 - cos o) / (o * o).
Definition vb (o : R) : R := (o - sin o) / (o * o * o).
Definition Vx (w : V3) : M3 := rod (va (v3norm w)) (vb (v3norm w)) w.

Lemma Vmat_exact w : 1 / 1000 < v3norm w -> Vmat w = Vx w.
Proof.
  intros H. unfold Vmat, Vx, se3_exp_c2, se3_exp_c3, va, vb. rewrite Rltb_lt by auto.
  rewrite <- v3norm_sq. f_equal. field. lra.
Qed.
Lemma Vmat_zero : Vmat v3zero = m3id.
Proof. apply rod_zero. Qed.

(** ** curve *)
Definition Vcurve (w : V3) (s : R) : M3 :=
  let o := v3norm w in
  m3add (m3scal s m3id)
    (m3add (m3scal ((1 - cos (s * o)) / (o * o)) (hat3 w))
           (m3scal ((s * o - sin (s * o)) / (o * o * o)) (m3mul (hat3 w) (hat3 w)))).
Definition tcurve (w v : V3) (s : R) : V3 := m3app (Vcurve w s) v.

Lemma Vcurve_1 w : Vcurve w 1 = Vx w.
Proof.
  unfold Vcurve, Vx, rod, va, vb; cbv zeta. rewrite !Rmult_1_l.
  generalize ((1 - cos (v3norm w)) / (v3norm w * v3norm w)),
    ((v3norm w - sin (v3norm w)) / (v3norm w * v3norm w * v3norm w)), (hat3 w). lin.
Qed.
Lemma W_Vcurve w s : w <> v3zero -> m3add (m3mul (hat3 w) (Vcurve w s)) m3id = rot_curve w s.
Proof.
  intros Hw. pose proof (norm_pos w Hw) as Ho. unfold Vcurve, rot_curve, rod; cbv zeta.
  assert (X : forall a b c, m3add (m3mul (hat3 w) (m3add (m3scal a m3id) (m3add (m3scal b (hat3 w)) (m3scal c (m3mul (hat3 w) (hat3 w)))))) m3id
     = m3add (m3add m3id (m3scal (a - c * v3sqn w) (hat3 w))) (m3mul (m3scal b (hat3 w)) (hat3 w))).
  { intros. geo. }
  rewrite X, <- v3norm_sq. do 3 f_equal. field. lra.
Qed.
Lemma tcurve_der w v s : w <> v3zero ->
  v3_derivative (tcurve w v) s (m3app (rot_curve w s) v).
Proof.
  intros Hw. pose proof (norm_pos w Hw) as Ho. unfold tcurve, Vcurve, rot_curve, rod; cbv zeta.
  set (o := v3norm w) in *.
  assert (E : o * o = v3sqn w) by apply v3norm_sq. clearbody o.
  destruct w as [x y z], v as [p q r]. unfold v3_derivative; cbn.
  repeat split; der1; field; lra.
Qed.

Definition rigid_curve (w v : V3) (s : R) : M4 := se3_of_Rt (rot_curve w s) (tcurve w v s).
Lemma rigid_curve_ode w v : w <> v3zero -> is_exp_curve4 (mkM4 (hat3 w) v v3zero 0) (rigid_curve w v).
Proof.
  intros Hw. pose proof (norm_pos w Hw) as Ho. destruct (rot_curve_ode w Hw) as [R0 HR]. split.
  - unfold rigid_curve. rewrite R0. unfold m4id, se3_of_Rt. f_equal.
    unfold tcurve, Vcurve; cbv zeta. rewrite !Rmult_0_l, sin_0, cos_0.
    replace ((1 - 1) / (v3norm w * v3norm w)) with 0 by (field; lra).
    replace ((0 - 0) / (v3norm w * v3norm w * v3norm w)) with 0 by (field; lra).
    generalize (hat3 w). lin.
  - intros s. unfold rigid_curve, se3_of_Rt, m4mul; cbn [mR mt mb mc].
    assert (E1 : m3add (m3mul (hat3 w) (rot_curve w s)) (m3outer v v3zero) = m3mul (hat3 w) (rot_curve w s)).
    { generalize (m3mul (hat3 w) (rot_curve w s)). lin. }
    assert (E2 : v3add (m3app (hat3 w) (tcurve w v s)) (v3scal 1 v) = m3app (rot_curve w s) v).
    { rewrite <- (W_Vcurve w s Hw). unfold tcurve. generalize (hat3 w), (Vcurve w s). lin. }
    assert (E3 : v3add (m3appT v3zero (rot_curve w s)) (v3scal 0 v3zero) = v3zero).
    { generalize (rot_curve w s). unfold m3appT. lin. }
    assert (E4 : v3dot v3zero (tcurve w v s) + 0 * 1 = 0).
    { generalize (tcurve w v s). lin. }
    rewrite E1, E2, E3, E4. split; [apply HR|]. split; [apply tcurve_der; auto|].
    split; [|apply derivable_pt_lim_const].
    unfold v3_derivative; cbn. repeat split; apply derivable_pt_lim_const.
Qed.
Lemma trans_curve_ode v : is_exp_curve4 (mkM4 (hat3 v3zero) v v3zero 0) (fun s => se3_of_Rt m3id (v3scal s v)).
Proof.
  split.
  - unfold se3_of_Rt, m4id. f_equal. lin.
  - intros s. unfold se3_of_Rt.
    replace (m4mul (mkM4 (hat3 v3zero) v v3zero 0) (mkM4 m3id (v3scal s v) v3zero 1)) with (mkM4 m3zero v v3zero 0)
      by (unfold hat3; lin).
    split; [exact (m3_derivative_const m3id s)|]. split.
    + destruct v as [x y z]. unfold v3_derivative; cbn. repeat split; der1; ring.
    + split; [|apply derivable_pt_lim_const].
      unfold v3_derivative; cbn. repeat split; apply derivable_pt_lim_const.
Qed.

(** exact values *)
Lemma se3_exp_exact_pos w v : 1 / 1000 < v3norm w ->
  se3_of_vec (mkV6 w v) = rigid_curve w v 1.
Proof.
  intros H. rewrite se3_of_vec_block; cbn [v6w v6v]. unfold rigid_curve, tcurve.
  rewrite Vcurve_1, Vmat_exact by auto. f_equal.
  rewrite so3_of_vec_rodx by lra. unfold rodx, rot_curve; cbv zeta. rewrite Rmult_1_l. reflexivity.
Qed.
Lemma se3_exp_zero_rot v : se3_of_vec (mkV6 v3zero v) = se3_of_Rt m3id v.
Proof.
  rewrite se3_of_vec_block; cbn [v6w v6v]. rewrite Vmat_zero, m3app_id, so3_exp_zero. reflexivity.
Qed.
Lemma se3_exp_is_exp xi : v6w xi = v3zero \/ 1 / 1000 < v3norm (v6w xi) -> matrix_exp4 (hat6 xi) (se3_of_vec xi).
Proof.
  destruct xi as [w v]; cbn [v6w]. rewrite hat6_block; cbn [v6w v6v]. intros [->|H].
  - exists (fun s => se3_of_Rt m3id (v3scal s v)). split; [apply trans_curve_ode|].
    rewrite se3_exp_zero_rot. f_equal. lin.
  - assert (Hw : w <> v3zero) by (intros ->; rewrite v3norm_zero' in H; lra).
    exists (rigid_curve w v). split; [apply rigid_curve_ode; auto | apply se3_exp_exact_pos; auto].
Qed.

(** uniqueness *)
Lemma exp_curve4_unique X E F : is_se3_alg X -> is_exp_curve4 X E -> is_exp_curve4 X F -> forall s, E s = F s.
Proof.
  intros (HW & Hb & Hc) HE HF. destruct X as [W v b c]; cbn in HW, Hb, Hc; subst b c.
  assert (ROW : forall G, is_exp_curve4 (mkM4 W v v3zero 0) G ->
     (forall s, mb (G s) = v3zero /\ mc (G s) = 1) /\ is_exp_curve3 W (fun s => mR (G s)) /\
     (forall s, v3_derivative (fun s => mt (G s)) s (v3add (m3app W (mt (G s))) v)) /\ mt (G 0) = v3zero).
  { intros G [G0 HG].
    assert (B : forall s, mb (G s) = v3zero /\ mc (G s) = 1).
    { intros s. 
      assert (D : forall x, derivable_pt_lim (fun x => vx (mb (G x))) x 0 /\ derivable_pt_lim (fun x => vy (mb (G x))) x 0 /\
                       derivable_pt_lim (fun x => vz (mb (G x))) x 0 /\ derivable_pt_lim (fun x => mc (G x)) x 0).
      { intros x. destruct (HG x) as (_ & _ & (D1 & D2 & D3) & D4).
        cbn [m4mul mb mc] in D1, D2, D3, D4.
        set (Z := v3add _ _) in D1, D2, D3.
        assert (EZ : Z = v3zero) by (unfold Z, m3appT; generalize (mR (G x)), (mb (G x)); lin).
        rewrite EZ in D1, D2, D3. cbn in D1, D2, D3.
        replace (v3dot v3zero (mt (G x)) + 0 * mc (G x)) with 0 in D4 by (generalize (mt (G x)), (mc (G x)); lin).
        auto. }
      pose proof (const_of_deriv0 _ (fun x => proj1 (D x)) s) as C1.
      pose proof (const_of_deriv0 _ (fun x => proj1 (proj2 (D x))) s) as C2.
      pose proof (const_of_deriv0 _ (fun x => proj1 (proj2 (proj2 (D x)))) s) as C3.
      pose proof (const_of_deriv0 _ (fun x => proj2 (proj2 (proj2 (D x)))) s) as C4.
      cbv beta in *. rewrite G0 in C1, C2, C3, C4. cbn in C1, C2, C3, C4.
      split; [|exact C4]. destruct (mb (G s)) as [x y z]; cbn in *. subst; reflexivity. }
    split; [exact B|]. split; [|split].
    - split; [rewrite G0; reflexivity|]. intros s. destruct (HG s) as (D & _).
      cbn [m4mul mR] in D. destruct (B s) as [B1 _]. cbn in D. rewrite B1 in D.
      replace (m3mul W (mR (G s))) with (m3add (m3mul W (mR (G s))) (m3outer v v3zero))
        by (generalize (m3mul W (mR (G s))); lin).
      exact D.
    - intros s. destruct (HG s) as (_ & D & _). destruct (B s) as [_ B2].
      unfold m4mul in D. cbn [mR mt mb mc] in D. rewrite B2 in D.
      replace (v3add (m3app W (mt (G s))) v) with (v3add (m3app W (mt (G s))) (v3scal 1 v))
        by (generalize (m3app W (mt (G s))); lin).
      exact D.
    - rewrite G0; reflexivity. }
  destruct (ROW E HE) as (BE & RE & TE & E0). destruct (ROW F HF) as (BF & RF & TF & F0). intros s.
  assert (RR : mR (E s) = mR (F s)) by (apply (exp_curve3_unique W _ _ HW RE RF s)).
  assert (TT : mt (E s) = mt (F s)).
  { set (g := fun x => v3sqn (v3sub (mt (E x)) (mt (F x)))).
    assert (G : forall x, derivable_pt_lim g x 0).
    { intros x. destruct (TE x) as (E1 & E2 & E3). destruct (TF x) as (F1 & F2 & F3).
      unfold g, v3sqn, v3dot, v3sub; cbn.
      pose proof (derivable_pt_lim_plus _ _ _ _ _
        (derivable_pt_lim_plus _ _ _ _ _ (sqdiff_der _ _ _ _ _ E1 F1) (sqdiff_der _ _ _ _ _ E2 F2))
        (sqdiff_der _ _ _ _ _ E3 F3)) as K.
      cbv beta in K.
      match type of K with derivable_pt_lim _ _ ?v => assert (EV : v = 0) end.
      2:{ rewrite EV in K; exact K. }
      clear - HW. destruct W as [w00 w01 w02 w10 w11 w12 w20 w21 w22].
      unfold skew in HW. lin_unfold_in HW. injection HW; clear HW; intros. cbn.
      replace w00 with 0 by lra. replace w11 with 0 by lra. replace w22 with 0 by lra.
      replace w10 with (- w01) by lra. replace w20 with (- w02) by lra. replace w21 with (- w12) by lra.
      ring. }
    pose proof (const_of_deriv0 g G s) as C.
    assert (Z : g s = 0).
    { rewrite C. unfold g. rewrite E0, F0. lin. }
    unfold g in Z. apply v3sqn_zero in Z. revert Z. generalize (mt (E s)), (mt (F s)).
    intros [? ? ?] [? ? ?] Z. injection Z; intros. apply v3_eq; lra. }
  destruct (BE s) as [B1 B2]. destruct (BF s) as [B3 B4].
  destruct (E s), (F s); cbn in *; congruence.
Qed.
Lemma matrix_exp4_unique X M N : is_se3_alg X -> matrix_exp4 X M -> matrix_exp4 X N -> M = N.
Proof. intros HX (E & HE & ->) (F & HF & ->). eapply exp_curve4_unique; eauto. Qed.

(** ** norms of rod differences applied to a vector *)
Lemma cross_norm_le w v : v3norm (v3cross w v) <= v3norm w * v3norm v.
Proof.
  pose proof (v3norm_nonneg w). pose proof (v3norm_nonneg v). pose proof (v3norm_nonneg (v3cross w v)).
  pose proof (v3norm_sq w) as Sw. pose proof (v3norm_sq v) as Sv. pose proof (v3norm_sq (v3cross w v)) as Sc.
  assert (L : v3sqn (v3cross w v) = v3sqn w * v3sqn v - v3dot w v * v3dot w v) by lin.
  pose proof (Rle_0_sqr (v3dot w v)) as P. unfold Rsqr in P.
  apply Rsqr_incr_0_var; [unfold Rsqr|nra].
  replace (v3norm w * v3norm v * (v3norm w * v3norm v)) with ((v3norm w * v3norm w) * (v3norm v * v3norm v)) by ring.
  rewrite Sw, Sv, Sc. lra.
Qed.
Lemma rod_app c1 c2 w v : m3app (rod c1 c2 w) v =
  v3add v (v3add (v3scal c1 (v3cross w v)) (v3scal c2 (v3cross w (v3cross w v)))).
Proof. unfold rod; geo. Qed.
Lemma lincomb_norm a b w v e1 e2 : Rabs a <= e1 -> Rabs b <= e2 ->
  v3norm (v3add (v3scal a (v3cross w v)) (v3scal b (v3cross w (v3cross w v))))
   <= (e1 * v3norm w + e2 * (v3norm w * v3norm w)) * v3norm v.
Proof.
  intros H1 H2. eapply Rle_trans; [apply v3norm_triangle|]. rewrite !v3norm_scal.
  pose proof (cross_norm_le w v) as C1. pose proof (cross_norm_le w (v3cross w v)) as C2.
  pose proof (v3norm_nonneg w). pose proof (v3norm_nonneg v).
  pose proof (Rabs_pos a). pose proof (Rabs_pos b).
  pose proof (v3norm_nonneg (v3cross w v)). pose proof (v3norm_nonneg (v3cross w (v3cross w v))).
  assert (Rabs a * v3norm (v3cross w v) <= e1 * (v3norm w * v3norm v)) by (apply Rmult_le_compat; auto).
  assert (C3 : v3norm (v3cross w (v3cross w v)) <= v3norm w * (v3norm w * v3norm v)).
  { eapply Rle_trans; [exact C2|]. apply Rmult_le_compat_l; auto. }
  assert (Rabs b * v3norm (v3cross w (v3cross w v)) <= e2 * (v3norm w * (v3norm w * v3norm v))) by (apply Rmult_le_compat; auto).
  lra.
Qed.
Lemma rod_app_diff c1 c2 c1' c2' w v e1 e2 : Rabs (c1 - c1') <= e1 -> Rabs (c2 - c2') <= e2 ->
  v3norm (v3sub (m3app (rod c1 c2 w) v) (m3app (rod c1' c2' w) v))
   <= (e1 * v3norm w + e2 * (v3norm w * v3norm w)) * v3norm v.
Proof.
  intros H1 H2. rewrite !rod_app.
  replace (v3sub _ _) with (v3add (v3scal (c1 - c1') (v3cross w v)) (v3scal (c2 - c2') (v3cross w (v3cross w v)))).
  - apply lincomb_norm; auto.
  - generalize (v3cross w (v3cross w v)), (v3cross w v). lin.
Qed.

Lemma va_bounds o : 0 < o <= 1 / 100 -> 1 / 2 - o * o / 24 <= va o <= 1 / 2 - o * o / 24 + o ^ 4 / 720.
Proof.
  intros H. pose proof PI_gt_3. unfold va.
  assert (L := cos_taylor6 o ltac:(lra)). pose proof (cos_taylor4 o ltac:(lra)) as [L2 U2].
  assert (P : 0 < o * o) by nra.
  split; apply Rmult_le_reg_r with (o * o); try lra; unfold Rdiv;
      rewrite ?(Rmult_assoc (1 - cos o)), ?Rinv_l, ?Rmult_1_r by lra.
  - replace ((1 * / 2 - o * o * / 24) * (o * o)) with (o^2 / 2 - o ^ 4 / 24) by field. lra.
  - replace ((1 * / 2 - o * o * / 24 + o ^ 4 * / 720) * (o * o)) with (o^2/2 - o ^ 4 / 24 + o^6/720) by field. lra.
Qed.
Lemma vb_bounds o : 0 < o <= 1 / 100 -> 1 / 6 - o * o / 120 <= vb o <= 1 / 6 - o * o / 120 + o ^ 4 / 5040.
Proof.
  intros H. pose proof PI_gt_3. unfold vb.
  assert (L := sin_taylor7 o ltac:(lra)). pose proof (sin_taylor5 o ltac:(lra)) as [L2 U2].
  assert (P : 0 < o * o * o) by (repeat apply Rmult_lt_0_compat; lra).
  split; apply Rmult_le_reg_r with (o * o * o); try lra; unfold Rdiv;
      rewrite ?(Rmult_assoc (o - sin o)), ?Rinv_l, ?Rmult_1_r by lra.
  - replace ((1 * / 6 - o * o * / 120) * (o * o * o)) with (o^3 / 6 - o ^ 5 / 120) by field. lra.
  - replace ((1 * / 6 - o * o * / 120 + o ^ 4 * / 5040) * (o * o * o)) with (o^3/6 - o ^ 5 / 120 + o^7/5040) by field. lra.
Qed.

(** every input: within 1e-26 (rotation entries) and 2e-18 |v| (translation) of
    the matrix exponential *)
Lemma se3_exp_near_exp xi : exists E, matrix_exp4 (hat6 xi) E /\
  m3_within (/ 10 ^ 26) (m3sub (mR (se3_of_vec xi)) (mR E)) /\
  v3norm (v3sub (mt (se3_of_vec xi)) (mt E)) <= 2 / 10 ^ 18 * v3norm (v6v xi) /\
  mb (se3_of_vec xi) = mb E /\ mc (se3_of_vec xi) = mc E.
Proof.
  assert (P26 : 0 < / 10 ^ 26) by (apply Rinv_0_lt_compat, pow_lt; lra).
  assert (P18 : 0 < 2 / 10 ^ 18) by (simpl; lra).
  destruct (Req_dec (v3norm (v6w xi)) 0) as [E0|N0].
  - apply v3norm_zero in E0. exists (se3_of_vec xi). split; [apply se3_exp_is_exp; auto|].
    split; [|split; [|split; reflexivity]].
    + replace (m3sub _ _) with m3zero by (generalize (mR (se3_of_vec xi)); lin).
      unfold m3_within; cbn - [pow]. rewrite Rabs_R0. repeat split; lra.
    + replace (v3sub _ _) with v3zero by (generalize (mt (se3_of_vec xi)); lin).
      rewrite v3norm_zero'. pose proof (v3norm_nonneg (v6v xi)). nra.
  - destruct xi as [w v]; cbn [v6w v6v] in *. pose proof (v3norm_nonneg w) as Hn.
    assert (Hw : w <> v3zero) by (intros ->; rewrite v3norm_zero' in N0; lra).
    exists (rigid_curve w v 1). split.
    { exists (rigid_curve w v). split; [|reflexivity]. rewrite hat6_block. apply rigid_curve_ode; auto. }
    rewrite se3_of_vec_block; cbn [v6w v6v]. unfold rigid_curve, tcurve. cbn [mR mt mb mc se3_of_Rt].
    split; [|split; [|split; reflexivity]].
    + destruct (so3_exp_near_exp w) as (E & HE & HD).
      replace (rot_curve w 1) with E; [exact HD|].
      apply (matrix_exp3_unique (hat3 w)); [apply hat3_skew | exact HE|].
      exists (rot_curve w). split; [apply rot_curve_ode; auto | reflexivity].
    + rewrite Vcurve_1. pose proof (v3norm_nonneg v) as Hv. destruct (Rlt_dec (1 / 1000) (v3norm w)) as [B|S].
      * rewrite Vmat_exact by auto. replace (v3sub _ _) with v3zero by (generalize (m3app (Vx w) v); lin).
        rewrite v3norm_zero'. nra.
      * unfold Vmat, Vx, se3_exp_c2, se3_exp_c3. rewrite Rltb_ge by lra. rewrite <- v3norm_sq.
        set (o := v3norm w) in *.
        pose proof (va_bounds o ltac:(lra)) as A. pose proof (vb_bounds o ltac:(lra)) as B.
        assert (Q : 0 < o * o <= 1 / 1000000) by nra.
        assert (Q2 : 0 < o ^ 4 <= 1 / 1000000000000) by (simpl; nra).
        eapply Rle_trans; [apply (rod_app_diff _ _ _ _ w v (1 / 720000000000000) (1 / 5040000000000000)); apply Rabs_le; lra|].
        apply Rmult_le_compat_r; auto. fold o. simpl. lra.
Qed.

(** ** adjoint and exponential *)
Lemma adj_exp_exact T xi : rigid T -> v6w xi = v3zero \/ 1 / 1000 < v3norm (v6w xi) ->
  m4mul T (se3_of_vec xi) = m4mul (se3_of_vec (m6app (se3_adj T) xi)) T.
Proof.
  intros HT H. destruct (adj_exp_gen T xi HT) as [E1 E2]. cbv zeta in E2.
  assert (HA : rotation (mR T)) by apply HT.
  assert (Z : m3sub (m3sub (so3_of_vec (m3app (mR T) (v6w xi))) m3id)
       (m3mul (Vmat (m3app (mR T) (v6w xi))) (hat3 (m3app (mR T) (v6w xi)))) = m3zero).
  { destruct H as [H|H].
    - rewrite H. replace (m3app (mR T) v3zero) with v3zero by (generalize (mR T); lin).
      rewrite so3_exp_zero, Vmat_zero. unfold hat3; lin.
    - set (w := m3app (mR T) (v6w xi)). assert (Hw : 1 / 1000 < v3norm w) by (unfold w; rewrite rotation_norm; auto).
      rewrite so3_of_vec_rodx, Vmat_exact by lra. unfold rodx, Vx, va, vb.
      set (o := v3norm w) in *.
      assert (X : forall a b c d, m3sub (m3sub (rod c d w) m3id) (m3mul (rod a b w) (hat3 w)) =
          m3add (m3scal (c - 1 + b * v3sqn w) (hat3 w)) (m3scal (d - a) (m3mul (hat3 w) (hat3 w)))).
      { intros. clearbody w. unfold rod. geo. }
      rewrite X, <- v3norm_sq. fold o.
      replace (sin o / o - 1 + (o - sin o) / (o * o * o) * (o * o)) with 0 by (field; lra).
      rewrite Rminus_eq_0. generalize (m3mul (hat3 w) (hat3 w)), (hat3 w). lin. }
  rewrite Z in E2.
  assert (E3 : mt (m4mul T (se3_of_vec xi)) = mt (m4mul (se3_of_vec (m6app (se3_adj T) xi)) T)).
  { revert E2. generalize (mt (m4mul T (se3_of_vec xi))), (mt (m4mul (se3_of_vec (m6app (se3_adj T) xi)) T)), (mt T).
    intros [? ? ?] [? ? ?] [? ? ?] E2. lin_unfold_in E2. injection E2; intros. apply v3_eq; lra. }
  revert E1 E3. rewrite (rigid_form T HT), !se3_of_vec_block, !mul_of_Rt. cbn [mR mt se3_of_Rt].
  intros E1 E3. rewrite E1, E3. reflexivity.
Qed.
(** in the Taylor window the translation is off by at most 2e-10 |t| o .. *)
Lemma adj_exp_near T xi : rigid T -> 
  mR (m4mul T (se3_of_vec xi)) = mR (m4mul (se3_of_vec (m6app (se3_adj T) xi)) T) /\
  v3norm (v3sub (mt (m4mul (se3_of_vec (m6app (se3_adj T) xi)) T)) (mt (m4mul T (se3_of_vec xi)))) <= 
    / 10 ^ 17 * v3norm (mt T).
Proof.
  intros HT. destruct (adj_exp_gen T xi HT) as [E1 E2]. split; [exact E1|]. rewrite E2. cbv zeta. clear E1 E2.
  assert (HA : rotation (mR T)) by apply HT.
  set (t := mt T). pose proof (v3norm_nonneg t) as Ht.
  assert (P17 : 0 < / 10 ^ 17) by (apply Rinv_0_lt_compat, pow_lt; lra).
  set (w := m3app (mR T) (v6w xi)). clearbody w t. clear HT HA T xi.
  assert (X : forall a b c d, m3app (m3sub (m3sub (rod c d w) m3id) (m3mul (rod a b w) (hat3 w))) t =
          v3add (v3scal (c - 1 + b * v3sqn w) (v3cross w t)) (v3scal (d - a) (v3cross w (v3cross w t)))).
  { intros. unfold rod. geo. }
  rewrite so3_of_vec_rod. unfold Vmat. rewrite X. clear X.
  assert (G : forall e1 e2 k1 k2, Rabs k1 <= e1 -> Rabs k2 <= e2 -> e1 * v3norm w + e2 * (v3norm w * v3norm w) <= / 10 ^ 17 ->
     v3norm (v3add (v3scal k1 (v3cross w t)) (v3scal k2 (v3cross w (v3cross w t)))) <= / 10 ^ 17 * v3norm t).
  { intros e1 e2 k1 k2 H1 H2 H3. eapply Rle_trans; [apply (lincomb_norm k1 k2 w t e1 e2); auto|].
    apply Rmult_le_compat_r; auto. }
  rewrite <- v3norm_sq. set (o := v3norm w) in *. pose proof (v3norm_nonneg w) as Hn. fold o in Hn.
  destruct (Req_dec o 0) as [Z|NZ].
  { unfold o in Z. apply v3norm_zero in Z. subst w.
    replace (v3add _ _) with v3zero; [rewrite v3norm_zero'; nra|].
    generalize (so3_exp_c1 o (o * o) - 1 + se3_exp_c3 o (o * o) * (o * o)), (so3_exp_c2 o (o * o) - se3_exp_c2 o (o * o)). lin. }
  assert (Hp : 0 < o) by lra.
  unfold so3_exp_c1, so3_exp_c2, se3_exp_c2, se3_exp_c3.
  destruct (Rlt_dec o (1 / 100000)) as [S|B].
  - rewrite Rltb_lt, Rltb_ge by lra.
    assert (Q : 0 < o * o <= 1 / 10000000000) by nra.
    apply (G (1 / 10000000000000000000) 0).
    + replace (1 - o * o / 6 - 1 + (1 / 6 - o * o / 120) * (o * o)) with (- ((o * o) * (o * o) / 120)) by field.
      rewrite Rabs_Ropp. apply Rabs_le. assert (0 <= (o * o) * (o * o) <= 1 / 100000000000000000000) by nra. lra.
    + rewrite Rminus_eq_0, Rabs_R0. lra.
    + simpl. lra.
  - rewrite (Rltb_ge o (1 / 100000)) by lra. destruct (Rlt_dec (1 / 1000) o) as [B2|S2].
    + rewrite Rltb_lt by lra. apply (G 0 0).
      * replace (sin o / o - 1 + (o - sin o) / (o * o) / o * (o * o)) with 0 by (field; lra). rewrite Rabs_R0; lra.
      * rewrite Rminus_eq_0, Rabs_R0; lra.
      * lra.
    + rewrite Rltb_ge by lra.
      pose proof (va_bounds o ltac:(lra)) as A. pose proof (vb_bounds o ltac:(lra)) as Bb.
      assert (Q : 0 < o * o <= 1 / 1000000) by nra.
      assert (Q2 : 0 < o ^ 4 <= 1 / 1000000000000) by (simpl; nra).
      apply (G (1 / 5040000000000000000000) (1 / 720000000000000)).
      * assert (E : sin o / o - 1 = - (vb o * (o * o))) by (unfold vb; field; lra).
        replace (sin o / o - 1 + (1 / 6 - o * o / 120) * (o * o)) with (- ((vb o - (1 / 6 - o * o / 120)) * (o * o))) by (rewrite E; ring).
        rewrite Rabs_Ropp. apply Rabs_le.
        assert (0 <= (vb o - (1 / 6 - o * o / 120)) * (o * o) <= (1 / 5040000000000000) * (1 / 1000000)).
        { split; [apply Rmult_le_pos; lra|]. apply Rmult_le_compat; lra. }
        lra.
      * change ((1 - cos o) / (o * o)) with (va o). apply Rabs_le. lra.
      * assert (o * o <= 1 / 1000000) by lra. simpl. lra.
Qed.
