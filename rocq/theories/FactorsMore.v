(** Reversed odometry, updates as curves, and 3D refutations. *)
Require Import Reals List Arith Lia Lra Psatz.
From Verif Require Import Lin LinFacts SO3 SE3 Angle AngleProofs SpecGeom TrigBounds SO3Exp SO3Ln SO3Misc SO3Dist SE3Alg SE3Exp SE3Ln.
From Verif Require Import Nodes NodesProofs Robust Graph Sums Solve Session Factors SpecFactors FactorsDer FactorsPlanar Factors3D Factors3DLn.
Import ListNotations.
Local Open Scope R_scope.

Lemma odom_compose o obs : odom_prediction o obs = compose2 (compose2 o (mkV3 0 0 (vx obs))) (mkV3 (vy obs) 0 (vz obs)).
Proof. unfold odom_prediction, compose2. cbn [vx vy vz]. f_equal; ring. Qed.
Lemma heading_shift a b c : same_heading (c + a) (c + b) <-> same_heading a b.
Proof. split; intros [k E]; exists k; lra. Qed.
Lemma odom_reversed obs init o t : same_pose2 t (odom_prediction o obs) ->
  (zero_residual (c_odom (v3opp obs) init) [P2 t; P2 o] <-> vy obs = 0 \/ same_heading (vx obs) (vz obs)).
Proof.
  intros (Tx & Ty & [k Tk]). rewrite odom_zero. unfold same_pose2, odom_prediction in *. cbn [vx vy vz v3opp] in *.
  assert (A : same_heading (vz t + - vx obs) (vz o + vz obs)) by (exists k; lra).
  destruct (same_angle_trig _ _ A) as [S C]. rewrite C, S, Tx, Ty. rewrite <- (heading_shift (vx obs) (vz obs) (vz o)).
  split.
  - intros (X & Y & _). destruct (Req_dec (vy obs) 0) as [Z|Z]; [left; auto|right].
    apply cos_sin_same; apply Rmult_eq_reg_l with (vy obs); auto; lra.
  - intros H. assert (X : vy obs * cos (vz o + vx obs) = vy obs * cos (vz o + vz obs) /\ vy obs * sin (vz o + vx obs) = vy obs * sin (vz o + vz obs)).
    { destruct H as [->|H]; [split; ring|]. destruct (same_angle_trig _ _ H) as [-> ->]. auto. }
    destruct X as [X Y]. repeat split; try lra. exists (- k)%Z. rewrite opp_IZR. lra.
Qed.

(** ** the increments of the solver are curves with velocity d *)
Lemma wrap_id_open a : - PI <= a < PI -> wrap_angle a = a.
Proof. apply wrap_angle_id. Qed.
Lemma wrap_curve_tangent x d : - PI < vz x < PI -> tangent (fun s => val_update_aux (P2 x) (fun k => s * d k)) (P2 x) d.
Proof.
  intros H. cbn [val_update_aux]. split.
  - f_equal. unfold wrap3, dx3, v3add. cbn [vx vy vz]. rewrite !Rmult_0_l, !Rplus_0_r, wrap_id_open by lra. destruct x; reflexivity.
  - exists (fun s => wrap3 (v3add x (dx3 (fun k => s * d k)))). split; [reflexivity|].
    unfold v3_derivative, wrap3, dx3, v3add. cbn [vx vy vz]. repeat split; try (eapply dl_eq; [der | cbv beta; ring]).
    apply dl_wrap; [eapply dl_eq; [der | cbv beta; ring]|]. rewrite Rmult_0_l, Rplus_0_r, wrap_id_open by lra. lra.
Qed.
Lemma landmark2_tangent a b d : tangent (fun s => val_update_aux (L2 a b) (fun k => s * d k)) (L2 a b) d.
Proof.
  cbn [val_update_aux]. split; [f_equal; ring|]. exists (fun s => a + s * d 0%nat), (fun s => b + s * d 1%nat). split; [reflexivity|].
  split; (eapply dl_eq; [der | cbv beta; ring]).
Qed.
Lemma landmark3_tangent p d : tangent (fun s => val_update_aux (L3 p) (fun k => s * d k)) (L3 p) d.
Proof.
  cbn [val_update_aux]. split.
  - f_equal. destruct p. unfold dx3, v3add. cbn. f_equal; ring.
  - exists (fun s => v3add p (dx3 (fun k => s * d k))). split; [reflexivity|]. unfold v3_derivative, dx3, v3add. cbn [vx vy vz].
    repeat split; (eapply dl_eq; [der | cbv beta; ring]).
Qed.
(** a unit vector moved orthogonally and normalised *)
Lemma normalize_curve n e : v3sqn n = 1 -> v3dot n e = 0 ->
  forall s, v3normalize (v3add n (v3scal s e)) = v3scal (/ sqrt (1 + s * s * v3sqn e)) (v3add n (v3scal s e)).
Proof.
  intros H0 H1 s. assert (E : v3sqn (v3add n (v3scal s e)) = 1 + s * s * v3sqn e).
  { replace (v3sqn (v3add n (v3scal s e))) with (v3sqn n + 2 * s * v3dot n e + s * s * v3sqn e) by lin. rewrite H0, H1. ring. }
  assert (P : 0 <= v3sqn e) by (destruct e; lin_unfold; nra).
  unfold v3normalize, v3norm. fold (v3sqn (v3add n (v3scal s e))). rewrite E. rewrite (Rltb_lt 0) by nra. reflexivity.
Qed.
Lemma plane_tangent p d : v3sqn (v4h p) = 1 -> v3dot (v4h p) (dx3 d) = 0 ->
  tangent (fun s => val_update_aux (PL p) (fun k => s * d k)) (PL p) d.
Proof.
  intros H0 H1. cbn [val_update_aux].
  assert (E : forall s, plane_normalize (v4add p (dx4 (fun k => s * d k))) =
     mkV4 (v3scal (/ sqrt (1 + s * s * v3sqn (dx3 d))) (v3add (v4h p) (v3scal s (dx3 d)))) (v4l p + s * d 3%nat)).
  { intros s. unfold plane_normalize. rewrite <- normalize_curve by auto. reflexivity. }
  set (q := v3sqn (dx3 d)) in *.
  assert (P : 0 < 1 + 0 * 0 * q) by lra.
  split.
  - rewrite E. f_equal. replace (1 + 0 * 0 * q) with 1 by ring. rewrite sqrt_1. destruct p as [[a b c] l]. lin_unfold. f_equal; [f_equal|]; field.
  - eexists. split; [reflexivity|].
    assert (K : derivable_pt_lim (fun s => / sqrt (1 + s * s * q)) 0 0).
    { eapply dl_ext with (f := fun s => 1 / sqrt (1 + s * s * q)). { intros s. unfold Rdiv. ring. }
      eapply dl_eq. { apply (dl_div (fun _ => 1) (fun s => sqrt (1 + s * s * q))); [apply dl_const | apply dl_sqrt; [exact P | der] |].
        apply Rgt_not_eq, sqrt_lt_R0. exact P. }
      cbv beta. replace (1 + 0 * 0 * q) with 1 by ring. rewrite sqrt_1. unfold Rsqr. field. }
    assert (K0 : / sqrt (1 + 0 * 0 * q) = 1). { replace (1 + 0 * 0 * q) with 1 by ring. rewrite sqrt_1. field. }
    assert (M : forall a b, derivable_pt_lim (fun s => / sqrt (1 + s * s * q) * (a + s * b)) 0 b).
    { intros a b. eapply dl_eq; [apply dl_mult; [exact K | der]|]. cbv beta. rewrite K0. ring. }
    split.
    + unfold v3_derivative. repeat split; (eapply dl_ext; [intros s; rewrite E; reflexivity | cbn [v4h v4l v3scal v3add vx vy vz]; apply M]).
    + eapply dl_ext; [intros s; rewrite E; reflexivity|]. cbn [v4l]. eapply dl_eq; [der | cbv beta; cbn; ring].
Qed.
(** moving the normal along itself changes nothing, whatever the Jacobian says *)
Lemma plane_scale_curve n l : v3sqn n = 1 -> exists e, 0 < e /\ forall s, Rabs (s - 0) < e -> plane_normalize (mkV4 (v3add n (v3scal s n)) l) = mkV4 n l.
Proof.
  intros H. exists 1. split; [lra|]. intros s Hs. rewrite Rminus_0_r in Hs. apply Rabs_def2 in Hs. unfold plane_normalize. cbn [v4h v4l]. f_equal.
  assert (E : v3add n (v3scal s n) = v3scal (1 + s) n) by lin. rewrite E.
  assert (Q : v3sqn (v3scal (1 + s) n) = (1 + s) * (1 + s)). { replace (v3sqn (v3scal (1 + s) n)) with ((1 + s) * (1 + s) * v3sqn n) by lin. rewrite H. ring. }
  unfold v3normalize, v3norm. fold (v3sqn (v3scal (1 + s) n)). rewrite Q, (Rltb_lt 0) by nra. rewrite sqrt_square by lra.
  destruct n as [a b c]. lin_unfold. f_equal; field; lra.
Qed.

(** ** 3D *)
Definition trans (t : V3) : M4 := se3_of_Rt m3id t.
Lemma trans_rigid t : rigid (trans t). Proof. apply rigid_of_Rt. apply rotation_id. Qed.
Lemma ln_trans t : se3_ln_vee (trans t) = mkV6 v3zero t.
Proof. rewrite (se3_ln_vee_block (trans t) v3zero 0 ln_id). rewrite rod_zero, m3app_id. reflexivity. Qed.
Lemma zero6_2poses Tobs init A B : zero_residual (c_2poses3d Tobs init) [P3 A; P3 B] <-> se3_ln_vee (tr_2poses3d Tobs A B) = v6zero.
Proof. symmetry. exact (v6_zero_iff (res_2poses3d Tobs A B)). Qed.
Lemma zero6_pose Tobs A : zero_residual (c_pose3d Tobs) [P3 A] <-> se3_ln_vee (se3_mul A (se3_inv Tobs)) = v6zero.
Proof. symmetry. exact (v6_zero_iff (res_pose3d Tobs A)). Qed.
Lemma inv_trans t : se3_inv (trans t) = trans (v3opp t).
Proof. unfold trans. rewrite inv_of_Rt, m3tr_id, m3app_id. reflexivity. Qed.
Lemma mul_trans a b : m4mul (trans a) (trans b) = trans (v3add a b).
Proof. unfold trans. rewrite mul_of_Rt, m3mul_id_l, m3app_id. f_equal. destruct a, b. lin_unfold. f_equal; ring. Qed.
Lemma reversed_trans a t init : zero_residual (c_2poses3d (trans t) init) [P3 (m4mul (trans a) (trans t)); P3 (trans a)] <-> t = v3zero.
Proof.
  rewrite zero6_2poses. unfold tr_2poses3d, se3_mul. rewrite inv_trans, !mul_trans, ln_trans. split.
  - intros E. injection E as E1 E2 E3. destruct a, t. cbn in *. unfold v3zero. f_equal; lra.
  - intros ->. unfold v6zero. f_equal. destruct a. lin_unfold. f_equal; ring.
Qed.
Lemma poses3d_jac_iff Tobs init A B : rigid Tobs -> rigid A -> rigid B -> mR (tr_2poses3d Tobs A B) = m3id ->
  (jacobian_at (c_2poses3d Tobs init) [P3 A; P3 B] <-> B = m4mul A Tobs).
Proof.
  intros HO HA HB HR. split; [|intros ->; apply poses3d_jac; auto]. intros J.
  set (Q := m4mul B (se3_inv Tobs)).
  assert (HQ : rigid Q) by (apply rigid_mul; auto using rigid_inv).
  assert (QI : se3_inv Q = m4mul Tobs (se3_inv B)).
  { rewrite <- (m4mul_id_r (m4mul Tobs (se3_inv B))), <- (rigid_rinv _ HQ), <- m4mul_assoc. unfold Q at 2.
    rewrite <- (m4mul_assoc (m4mul Tobs (se3_inv B))), (m4mul_assoc Tobs), rigid_linv, m4mul_id_r, rigid_rinv, m4mul_id_l by auto. reflexivity. }
  assert (E : A = Q).
  { apply (pose3d_jac_iff Q A HQ HA).
    - assert (X : m4mul (tr_2poses3d Tobs A B) Q = A).
      { unfold tr_2poses3d, se3_mul, Q. rewrite <- !m4mul_assoc. rewrite (m4mul_assoc (m4mul A Tobs)), rigid_linv, m4mul_id_r, m4mul_assoc, rigid_rinv, m4mul_id_r by auto. reflexivity. }
      rewrite <- X. assert (HT : rigid (tr_2poses3d Tobs A B)) by (apply tr_rigid; auto).
      rewrite (rigid_form _ HT), (rigid_form _ HQ), mul_of_Rt, HR. cbn [mR se3_of_Rt]. apply m3mul_id_l.
    - intros cs ds T i Hi. apply tangents_1 in T as (c & d & -> & -> & T). set (z := fun _ : nat => 0).
      assert (TB : tangent (fun _ => P3 B) (P3 B) z).
      { split; auto. exists (fun _ => B). split; auto. split. { intros _. apply rigid_short, HB. }
        eapply m4_der_eq; [apply m4_der_const|]. unfold twist, z, dx6, dx3. destruct B as [[] [] [] ?]. lin_unfold. repeat f_equal; ring. }
      specialize (J _ _ (tangents_cons _ _ _ _ _ _ T (tangents_cons _ _ _ _ _ _ TB tangents_nil)) i Hi).
      destruct T as (E0 & F & EF & SF & DF).
      apply dl_ext with (f := fun s => fc_res (c_2poses3d Tobs init) [c s; P3 B] i).
      { intros s. rewrite EF. cbn [map fc_res c_2poses3d c_pose3d]. rewrite EF. unfold res_pose3d, res_2poses3d, tr_2poses3d, se3_mul. rewrite QI, m4mul_assoc. reflexivity. }
      eapply dl_eq; [exact J|]. cbn [fc_dim c_2poses3d] in Hi.
      destruct (i_lt_6 i Hi) as [->|[->|[->|[->|[->| ->]]]]]; unfold z; cbn; ring. }
  rewrite E. unfold Q. rewrite m4mul_assoc, rigid_linv, m4mul_id_r by auto. reflexivity.
Qed.
