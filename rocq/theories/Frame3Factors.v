(** The 3D factors in two coordinate frames (C82). *)
Require Import Reals List Arith Lia Lra Psatz Bool.
From Verif Require Import Lin LinFacts SpecGeom SO3 SE3 TrigBounds SO3Exp SO3Ln SE3Exp SE3Ln SE3Alg AngleProofs Nodes Robust Graph Sums Solve SpecSolve SolveSums Session Factors SpecFactors SpecFrame3.
Import ListNotations.
Local Open Scope R_scope.

(** ** the logarithm of a conjugated motion *)
Definition ln_scale (t : R) : R := match acos_d t with None => 0 | Some o => if Rltb o (1 / 100000) then 1/2 + o * o / 12 else 1/2 * o / sin o end.
Definition ln_angle (t : R) : R := match acos_d t with None => 0 | Some o => o end.
Lemma so3_ln_half A : 1 < m3trace A -> so3_ln A = (m3scal (ln_scale ((m3trace A - 1) * (1 / 2))) (m3sub A (m3tr A)), ln_angle ((m3trace A - 1) * (1 / 2))).
Proof.
  intros H. unfold so3_ln, ln_scale, ln_angle. rewrite (proj2 (Rltb_iff _ _)) by lra. destruct (acos_d _) as [o|]; [|reflexivity]. destruct (Rltb o _); reflexivity.
Qed.
Lemma trace_conj Q A : rotation Q -> m3trace (conj3 Q A) = m3trace A.
Proof.
  intros HQ. unfold conj3. assert (E : m3trace (m3mul (m3mul Q A) (m3tr Q)) = m3trace (m3mul (m3mul (m3tr Q) Q) A)) by lin. rewrite E, (rotation_linv Q HQ), m3mul_id_l. reflexivity.
Qed.
Lemma skew_hat A : m3sub A (m3tr A) = hat3 (vee3 (m3sub A (m3tr A))).
Proof. destruct A. unfold vee3, hat3, m3sub, m3tr. cbn. f_equal; ring. Qed.
Lemma skew_conj Q A : rotation Q -> m3sub (conj3 Q A) (m3tr (conj3 Q A)) = hat3 (m3app Q (vee3 (m3sub A (m3tr A)))).
Proof. intros HQ. rewrite (hat3_rot Q _ HQ), <- skew_hat. fold (conj3 Q (m3sub A (m3tr A))). unfold conj3. lin. Qed.
Lemma scal_hat k u : m3scal k (hat3 u) = hat3 (v3scal k u). Proof. unfold hat3. lin. Qed.
Lemma app_scal A k u : m3app A (v3scal k u) = v3scal k (m3app A u). Proof. lin. Qed.
Definition ln_vinv (k1 : R) (w : V3) : M3 := m3add m3id (m3add (m3scal (-(1/2)) (hat3 w)) (m3mul (m3scal k1 (hat3 w)) (hat3 w))).
Lemma ln_vinv_rot Q k1 w : rotation Q -> ln_vinv k1 (m3app Q w) = conj3 Q (ln_vinv k1 w).
Proof.
  intros HQ. unfold ln_vinv. rewrite (hat3_rot Q w HQ). fold (conj3 Q (hat3 w)). rewrite !conj3_add, (conj3_id Q HQ), (conj3_mul Q _ _ HQ), !conj3_scal. reflexivity.
Qed.
Lemma se3_ln_half T : 1 < m3trace (mR T) -> let w := v3scal (ln_scale ((m3trace (mR T) - 1) * (1 / 2))) (vee3 (m3sub (mR T) (m3tr (mR T)))) in
  se3_ln_vee T = mkV6 w (m3app (ln_vinv (se3_ln_k1 (ln_angle ((m3trace (mR T) - 1) * (1 / 2)))) w) (mt T)).
Proof.
  intros H w. unfold se3_ln_vee, se3_ln. rewrite (so3_ln_half _ H). rewrite skew_hat, scal_hat. fold w. unfold vee6. cbn [mR mt]. unfold ln_vinv. f_equal. unfold vee3, hat3. destruct w as [x y z]. cbn. f_equal; ring.
Qed.
Lemma ln_turned g Z : rigid g -> mt g = v3zero -> 1 < m3trace (mR Z) -> mR (m4mul (m4mul g Z) (se3_inv g)) = conj3 (mR g) (mR Z) -> mt (m4mul (m4mul g Z) (se3_inv g)) = m3app (mR g) (mt Z) ->
  se3_ln_vee (m4mul (m4mul g Z) (se3_inv g)) = mkV6 (m3app (mR g) (v6w (se3_ln_vee Z))) (m3app (mR g) (v6v (se3_ln_vee Z))).
Proof.
  intros (HQ & _) _ Tr ER Et. rewrite (se3_ln_half Z Tr). rewrite se3_ln_half by (rewrite ER, trace_conj; auto). rewrite ER, Et, (trace_conj _ _ HQ), (skew_conj _ _ HQ). cbn [v6w v6v].
  assert (V : forall u, vee3 (hat3 u) = u) by (intros [x y z]; unfold vee3, hat3; cbn; f_equal; ring). rewrite V, <- app_scal, (ln_vinv_rot _ _ _ HQ). f_equal. unfold conj3. rewrite <- !m3app_mul, m3mul_assoc, (rotation_linv _ HQ), m3mul_id_r. reflexivity.
Qed.
Lemma rigid_conj g Z : rigid g -> rigid Z -> mt g = v3zero -> mR (m4mul (m4mul g Z) (se3_inv g)) = conj3 (mR g) (mR Z) /\ mt (m4mul (m4mul g Z) (se3_inv g)) = m3app (mR g) (mt Z).
Proof.
  intros Hg HZ T0. rewrite (rigid_form g Hg), (rigid_form Z HZ), T0, inv_of_Rt, !mul_of_Rt. unfold se3_of_Rt. cbn [mR mt]. split; [reflexivity|]. lin.
Qed.
Lemma ln_conj g Z : rigid g -> rigid Z -> mt g = v3zero -> 1 < m3trace (mR Z) ->
  se3_ln_vee (m4mul (m4mul g Z) (se3_inv g)) = mkV6 (m3app (mR g) (v6w (se3_ln_vee Z))) (m3app (mR g) (v6v (se3_ln_vee Z))).
Proof. intros Hg HZ T0 Tr. destruct (rigid_conj g Z Hg HZ T0). apply ln_turned; auto. Qed.


(** the twist of the second frame *)
Definition lever (g : M4) (xi : V6) : V6 := mkV6 (m3app (mR g) (v6w xi)) (v3add (m3app (mR g) (v6v xi)) (v3cross (mt g) (m3app (mR g) (v6w xi)))).
Lemma lever_adj g xi : lever g xi = m6app (se3_adj g) xi.
Proof. unfold lever. rewrite adj_app. cbn [v6w v6v]. f_equal. lin. Qed.
Lemma of_vec_zero t : se3_of_vec (mkV6 v3zero t) = se3_of_Rt m3id t.
Proof.
  assert (Z : vee6 (hat6 (mkV6 v3zero t)) = mkV6 v3zero t). { unfold vee6, hat6. cbn. destruct t. unfold v3zero, vee3. cbn. f_equal; f_equal; ring. }
  unfold se3_of_vec, se3_exp. rewrite Z. cbn [v6w v6v]. unfold se3_of_Rt. rewrite so3_exp_zero. f_equal.
  generalize (se3_exp_c2 (v3norm v3zero) (v3sqn v3zero)) (se3_exp_c3 (v3norm v3zero) (v3sqn v3zero)). intros a b. unfold hat6. cbn [mR v6w v6v]. lin.
Qed.
Lemma conj_vec g xi Z : rigid g -> v6w xi = v3zero \/ 1 / 1000 < v3norm (v6w xi) -> Z = se3_of_vec xi -> m4mul (m4mul g Z) (se3_inv g) = se3_of_vec (lever g xi).
Proof.
  intros Hg H ->. rewrite (adj_exp_exact g xi Hg H), <- lever_adj. generalize (se3_of_vec (lever g xi)). intros E. transitivity (m4mul E (m4mul g (se3_inv g))); [generalize (se3_inv g); intros; lin|].
  rewrite (rigid_rinv g Hg). lin.
Qed.
Lemma ln_moved g Z : rigid g -> rigid Z -> small_turn g (mR Z) -> se3_ln_vee (m4mul (m4mul g Z) (se3_inv g)) = lever g (se3_ln_vee Z).
Proof.
  intros Hg HZ (Tr & [T0|[E3|Sm]]).
  - rewrite (ln_conj g Z Hg HZ T0 Tr). unfold lever. f_equal. rewrite T0. lin.
  - assert (E : Z = se3_of_vec (mkV6 v3zero (mt Z))) by (rewrite of_vec_zero, (rigid_form Z HZ) at 1; f_equal; apply rotation_trace3; auto; apply HZ).
    rewrite (conj_vec g (mkV6 v3zero (mt Z)) Z Hg (or_introl eq_refl) E). rewrite E at 2. rewrite se3_ln_exp_zero. unfold lever at 1. cbn [v6w v6v].
    assert (Z0 : m3app (mR g) v3zero = v3zero) by lin. rewrite Z0. unfold lever. cbn [v6w v6v]. rewrite Z0. apply se3_ln_exp_zero.
  - assert (HI : mR Z <> m3id). { intros E. rewrite E in Sm. unfold m3trace, m3id in Sm. cbn in Sm. pose proof (COS_bound (5 / 1000)). lra. }
    destruct (rotation_rodx_exists (mR Z) (proj1 HZ) HI) as (w & Hw & Hwt & Hr). pose proof PI_gt_3 as Hpi.
    assert (L1 : 5 / 1000 < v3norm w). { apply Rnot_le_lt. intros L. assert (cos (5 / 1000) <= cos (v3norm w)) by (apply cos_decr_1; lra). lra. }
    assert (L2 : v3norm w < PI / 2). { apply Rnot_le_lt. intros L. assert (cos (v3norm w) <= cos (PI / 2)) by (apply cos_decr_1; lra). rewrite cos_PI2 in *. lra. }
    assert (EZ : se3_exp (se3_ln Z) = Z). { apply (regenerate_exact Z (v3norm w)); auto. split; auto; lra. right; left; lra. }
    assert (Lw : so3_ln (mR Z) = (hat3 w, v3norm w)). { rewrite <- Hr. apply ln_rodx_acute; lra. }
    assert (X : exists v, se3_ln Z = hat6 (mkV6 w v)).
    { unfold se3_ln. rewrite Lw. eexists. unfold hat6. cbn [v6w v6v]. instantiate (1 := m3app _ (mt Z)). match goal with |- mkM4 _ ?a _ _ = mkM4 _ ?b _ _ => replace b with a; [reflexivity|] end. destruct (mt Z). apply v3_eq; reflexivity. }
    destruct X as (v & X). assert (EV : Z = se3_of_vec (mkV6 w v)) by (unfold se3_of_vec; rewrite <- X; auto).
    assert (LZ : se3_ln_vee Z = mkV6 w v). { rewrite EV. apply se3_ln_exp; lra. }
    rewrite (conj_vec g (mkV6 w v) Z Hg) by (auto; right; cbn; lra). rewrite LZ. unfold lever at 1. apply se3_ln_exp; cbn [v6w]; rewrite (norm_app _ _ (proj1 Hg)); lra.
Qed.

(** ** residuals *)
Lemma m4_assoc A B C : m4mul (m4mul A B) C = m4mul A (m4mul B C). Proof. lin. Qed.
Lemma frame_pose3d g obs X : rigid g -> rigid obs -> rigid X -> small_turn g (m3mul (mR X) (m3tr (mR obs))) -> res_pose3d (m4mul g obs) (m4mul g X) = lever g (res_pose3d obs X).
Proof.
  intros Hg Ho HX Tr. unfold res_pose3d, se3_mul. pose proof (se3_inv_mul g obs Hg Ho) as Iv. unfold se3_mul in Iv. rewrite Iv, <- (ln_moved g (m4mul X (se3_inv obs))); auto.
  - rewrite !m4_assoc. reflexivity.
  - apply rigid_mul; auto. apply rigid_inv; auto.
  - rewrite (rigid_form X HX), (rigid_form obs Ho), inv_of_Rt, mul_of_Rt. exact Tr.
Qed.
Lemma frame_2poses3d g obs A B : rigid g -> rigid obs -> rigid A -> rigid B -> small_turn g (m3mul (m3mul (mR A) (mR obs)) (m3tr (mR B))) -> res_2poses3d obs (m4mul g A) (m4mul g B) = lever g (res_2poses3d obs A B).
Proof.
  intros Hg Ho HA HB Tr. unfold res_2poses3d, tr_2poses3d, se3_mul. pose proof (se3_inv_mul g B Hg HB) as Iv. unfold se3_mul in Iv. rewrite Iv, <- (ln_moved g (m4mul (m4mul A obs) (se3_inv B))); auto.
  - rewrite !m4_assoc. reflexivity.
  - apply rigid_mul; [apply rigid_mul; auto | apply rigid_inv; auto].
  - rewrite (rigid_form A HA), (rigid_form B HB), (rigid_form obs Ho), inv_of_Rt, !mul_of_Rt. exact Tr.
Qed.
Lemma frame_landmark3d g obs T p : rigid g -> rigid T -> res_landmark3d obs (m4mul g T) (placed g p) = res_landmark3d obs T p.
Proof.
  intros Hg HT. unfold res_landmark3d. rewrite (se3_inv_mul g T Hg HT). f_equal. change (placed g p) with (se3_transform g p).
  rewrite (transform_mul (se3_inv T) (se3_inv g)) by (apply rigid_inv; auto). rewrite (transform_inv_l g p Hg). reflexivity.
Qed.
Lemma frame_plane4d g obs T n n' : rigid g -> rigid T -> v4h n' = m3app (mR g) (v4h n) -> v4l n' = v4l n - v3dot (v4h n') (mt g) -> res_plane4d obs (m4mul g T) n' = res_plane4d obs T n.
Proof.
  intros Hg HT E1 E2. assert (X : m4app (m4tr (m4mul g T)) n' = m4app (m4tr T) n); [|unfold res_plane4d; rewrite X; reflexivity].
  assert (A : m4app (m4tr (m4mul g T)) n' = m4app (m4tr T) (m4app (m4tr g) n')) by lin. rewrite A. f_equal. destruct n' as [h l], n as [h0 l0]. cbn [v4h v4l] in *. subst h. rewrite E2. rewrite (rigid_form g Hg). destruct Hg as (HQ & _).
  unfold se3_of_Rt, m4app, m4tr. cbn [mR mt mb mc v4h v4l]. f_equal.
  - assert (B : forall l, v3add (m3app (m3tr (mR g)) (m3app (mR g) h0)) (v3scal l v3zero) = m3app (m3mul (m3tr (mR g)) (mR g)) h0) by (intros; lin). rewrite B, (rotation_linv _ HQ). lin.
  - unfold v3dot. ring.
Qed.
Lemma frame_point2plane g zx zy n T : rigid g -> rigid T -> res_point2plane zx (placed g zy) (m3app (mR g) n) (m4mul g T) = res_point2plane zx zy n T.
Proof.
  intros Hg HT. unfold res_point2plane. change (m4mul g T) with (se3_mul g T). rewrite (transform_mul g T zx Hg HT). change (placed g zy) with (se3_transform g zy). destruct Hg as (HQ & _). unfold se3_transform at 1 3.
  generalize (se3_transform T zx). intros q. assert (A : v3dot (m3app (mR g) n) (v3sub (v3add (m3app (mR g) q) (mt g)) (v3add (m3app (mR g) zy) (mt g))) = v3dot n (m3app (m3mul (m3tr (mR g)) (mR g)) (v3sub q zy))) by lin.
  rewrite A, (rotation_linv _ HQ). lin.
Qed.
