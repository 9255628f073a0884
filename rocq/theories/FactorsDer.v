(** Derivatives of the planar factors. *)
Require Import Reals List Arith Lia Lra Psatz.
From Verif Require Import Lin LinFacts SO3 SE3 Angle AngleProofs SpecGeom Nodes NodesProofs Robust Graph Sums Solve Session Factors SpecFactors.
Import ListNotations.
Local Open Scope R_scope.

(** ** derivative rules in applied form *)
Lemma dl_eq f x a b : derivable_pt_lim f x a -> a = b -> derivable_pt_lim f x b. Proof. intros; subst; auto. Qed.
Lemma dl_const c x : derivable_pt_lim (fun _ => c) x 0. Proof. apply derivable_pt_lim_const. Qed.
Lemma dl_id x : derivable_pt_lim (fun s => s) x 1. Proof. apply derivable_pt_lim_id. Qed.
Lemma dl_plus f g x a b : derivable_pt_lim f x a -> derivable_pt_lim g x b -> derivable_pt_lim (fun s => f s + g s) x (a + b).
Proof. intros. apply derivable_pt_lim_plus; auto. Qed.
Lemma dl_minus f g x a b : derivable_pt_lim f x a -> derivable_pt_lim g x b -> derivable_pt_lim (fun s => f s - g s) x (a - b).
Proof. intros. apply derivable_pt_lim_minus; auto. Qed.
Lemma dl_opp f x a : derivable_pt_lim f x a -> derivable_pt_lim (fun s => - f s) x (- a).
Proof. intros. apply derivable_pt_lim_opp; auto. Qed.
Lemma dl_mult f g x a b : derivable_pt_lim f x a -> derivable_pt_lim g x b ->
  derivable_pt_lim (fun s => f s * g s) x (a * g x + f x * b).
Proof. intros. apply derivable_pt_lim_mult; auto. Qed.
Lemma dl_div f g x a b : derivable_pt_lim f x a -> derivable_pt_lim g x b -> g x <> 0 ->
  derivable_pt_lim (fun s => f s / g s) x ((a * g x - b * f x) / Rsqr (g x)).
Proof. intros. apply derivable_pt_lim_div; auto. Qed.
Lemma dl_cos f x a : derivable_pt_lim f x a -> derivable_pt_lim (fun s => cos (f s)) x (- sin (f x) * a).
Proof. intros H. apply (derivable_pt_lim_comp f cos); auto. apply derivable_pt_lim_cos. Qed.
Lemma dl_sin f x a : derivable_pt_lim f x a -> derivable_pt_lim (fun s => sin (f s)) x (cos (f x) * a).
Proof. intros H. apply (derivable_pt_lim_comp f sin); auto. apply derivable_pt_lim_sin. Qed.
Lemma dl_atan f x a : derivable_pt_lim f x a -> derivable_pt_lim (fun s => atan (f s)) x (/ (1 + f x ^ 2) * a).
Proof. intros H. apply (derivable_pt_lim_comp f atan); auto. apply derivable_pt_lim_atan. Qed.
Lemma dl_sqrt f x a : 0 < f x -> derivable_pt_lim f x a -> derivable_pt_lim (fun s => sqrt (f s)) x (/ (2 * sqrt (f x)) * a).
Proof. intros P H. apply (derivable_pt_lim_comp f sqrt); auto. apply derivable_pt_lim_sqrt; auto. Qed.
Lemma dl_continuity f x a : derivable_pt_lim f x a -> continuity_pt f x.
Proof. intros H. apply derivable_continuous_pt. exists a. exact H. Qed.
(** a derivative only depends on values near the point *)
Lemma dl_near f g x a d : 0 < d -> (forall s, Rabs (s - x) < d -> g s = f s) -> derivable_pt_lim f x a -> derivable_pt_lim g x a.
Proof.
  intros D E H eps He. destruct (H eps He) as [del Hd].
  assert (P : 0 < Rmin del d) by (apply Rmin_glb_lt; auto; apply cond_pos).
  exists (mkposreal _ P). intros h h0 Hh. simpl in Hh.
  rewrite (E (x + h)), (E x).
  - apply Hd; auto. eapply Rlt_le_trans; [apply Hh | apply Rmin_l].
  - rewrite Rminus_eq_0, Rabs_R0. auto.
  - replace (x + h - x) with h by ring. eapply Rlt_le_trans; [apply Hh | apply Rmin_r].
Qed.
Lemma continuity_near f x e : continuity_pt f x -> 0 < e -> exists d, 0 < d /\ forall s, Rabs (s - x) < d -> Rabs (f s - f x) < e.
Proof.
  intros C He. destruct (C e He) as (d & Hd & H). exists d. split; auto. intros s Hs.
  destruct (Req_dec x s) as [<-|N]. { rewrite Rminus_eq_0, Rabs_R0. auto. }
  apply H. split; auto. split; auto. exact I.
Qed.

Ltac der :=
  lazymatch goal with
  | |- derivable_pt_lim (fun s => s) _ _ => apply dl_id
  | |- derivable_pt_lim (fun s => _ + _) _ _ => eapply dl_plus; der
  | |- derivable_pt_lim (fun s => _ - _) _ _ => eapply dl_minus; der
  | |- derivable_pt_lim (fun s => _ * _) _ _ => eapply dl_mult; der
  | |- derivable_pt_lim (fun s => - _) _ _ => eapply dl_opp; der
  | |- derivable_pt_lim (fun s => cos _) _ _ => eapply dl_cos; der
  | |- derivable_pt_lim (fun s => sin _) _ _ => eapply dl_sin; der
  | |- _ => first [apply dl_const | eassumption]
  end.

(** ** wrapping *)
Lemma same_heading_angle a b : same_heading a b <-> same_angle a b. Proof. reflexivity. Qed.
Lemma wrap_near a b : - PI <= wrap_angle a + (b - a) < PI -> wrap_angle b = wrap_angle a + (b - a).
Proof.
  intros H. apply wrap_angle_unique; auto. destruct (wrap_angle_spec a) as [_ [k K]].
  exists k. rewrite K. ring.
Qed.
Lemma dl_wrap f x a : derivable_pt_lim f x a -> wrap_angle (f x) <> - PI -> derivable_pt_lim (fun s => wrap_angle (f s)) x a.
Proof.
  intros H N. destruct (wrap_angle_spec (f x)) as [[L U] _].
  assert (L' : - PI < wrap_angle (f x)) by lra.
  destruct (continuity_near f x (Rmin (wrap_angle (f x) + PI) (PI - wrap_angle (f x)))) as (d & Hd & Hf).
  { eapply dl_continuity; eauto. }
  { apply Rmin_glb_lt; lra. }
  apply dl_near with (f := fun s => wrap_angle (f x) + (f s - f x)) (d := d); auto.
  - intros s Hs. apply wrap_near. specialize (Hf s Hs).
    pose proof (Rmin_l (wrap_angle (f x) + PI) (PI - wrap_angle (f x))).
    pose proof (Rmin_r (wrap_angle (f x) + PI) (PI - wrap_angle (f x))).
    apply Rabs_def2 in Hf. lra.
  - eapply dl_eq; [der | cbv beta; ring].
Qed.
Lemma wrap_angle_0_iff a : wrap_angle a = 0 <-> same_heading a 0.
Proof.
  split; intros H.
  - destruct (wrap_angle_spec a) as [_ [k K]]. rewrite H in K. exists (- k)%Z. rewrite opp_IZR. lra.
  - apply wrap_angle_unique. { pose proof PI_RGT_0. lra. } apply same_angle_sym. exact H.
Qed.
Lemma heading_sub a b : same_heading (a - b) 0 <-> same_heading a b.
Proof. split; intros [k K]; exists k; lra. Qed.

(** ** lists of curves *)
Lemma tangents_1 cs v ds : tangents cs [v] ds -> exists c d, cs = [c] /\ ds = [d] /\ tangent c v d.
Proof. intros H. inversion H as [|c v0 d cs0 vs0 ds0 T R]; subst. inversion R; subst. eauto. Qed.
Lemma tangents_2 cs v1 v2 ds : tangents cs [v1; v2] ds ->
  exists c1 c2 d1 d2, cs = [c1; c2] /\ ds = [d1; d2] /\ tangent c1 v1 d1 /\ tangent c2 v2 d2.
Proof.
  intros H. inversion H as [|c v0 d cs0 vs0 ds0 T R]; subst. inversion R as [|c' v0' d' cs0' vs0' ds0' T' R']; subst.
  inversion R'; subst. exists c, c', d, d'. auto.
Qed.
Lemma i_lt_1 i : (i < 1)%nat -> i = 0%nat. Proof. lia. Qed.
Lemma i_lt_2 i : (i < 2)%nat -> i = 0%nat \/ i = 1%nat. Proof. lia. Qed.
Lemma i_lt_3 i : (i < 3)%nat -> i = 0%nat \/ i = 1%nat \/ i = 2%nat. Proof. lia. Qed.
Lemma i_lt_4 i : (i < 4)%nat -> i = 0%nat \/ i = 1%nat \/ i = 2%nat \/ i = 3%nat. Proof. lia. Qed.
Lemma i_lt_6 i : (i < 6)%nat -> i = 0%nat \/ i = 1%nat \/ i = 2%nat \/ i = 3%nat \/ i = 4%nat \/ i = 5%nat. Proof. lia. Qed.
Lemma dl_ext f g x a : (forall s, g s = f s) -> derivable_pt_lim f x a -> derivable_pt_lim g x a.
Proof. intros E H. apply dl_near with (f := f) (d := 1); auto. lra. Qed.

Lemma zero3 dim all res jac init vs v : (forall i, (i < 3)%nat -> res vs i = lvec (l3 v) i) -> dim = 3%nat ->
  (zero_residual (mkFC dim all res jac init) vs <-> v = v3zero).
Proof.
  intros E ->. unfold zero_residual. cbn [fc_dim fc_res]. split.
  - intros H. destruct v as [a b c]. unfold v3zero.
    pose proof (H 0%nat ltac:(lia)) as H0. pose proof (H 1%nat ltac:(lia)) as H1. pose proof (H 2%nat ltac:(lia)) as H2.
    rewrite E in H0, H1, H2 by lia. cbn in H0, H1, H2. subst. reflexivity.
  - intros -> i Hi. rewrite E by auto. destruct (i_lt_3 i Hi) as [->|[->| ->]]; reflexivity.
Qed.
Lemma v3_zero_iff a b c : mkV3 a b c = v3zero <-> a = 0 /\ b = 0 /\ c = 0.
Proof. split. { intros H. injection H as -> -> ->. auto. } intros (-> & -> & ->). reflexivity. Qed.

(** ** Factor1Pose2d *)
Lemma pose2d_zero obs x : zero_residual (c_pose2d obs) [P2 x] <-> same_pose2 x obs.
Proof.
  unfold c_pose2d. rewrite (zero3 _ _ _ _ _ _ (res_pose2d obs x)) by reflexivity.
  unfold res_pose2d, wrap3, v3sub. cbn [vx vy vz]. rewrite v3_zero_iff, wrap_angle_0_iff, heading_sub.
  unfold same_pose2. split; intros (A & B & C); repeat split; auto; lra.
Qed.
Lemma pose2d_jac obs x : wrap_angle (vz x - vz obs) <> - PI -> jacobian_at (c_pose2d obs) [P2 x].
Proof.
  intros N cs ds H i Hi. apply tangents_1 in H as (c & d & -> & -> & (E0 & f & Ec & (F1 & F2 & F3))).
  rewrite Ec in E0. injection E0 as E0. subst x.
  apply dl_ext with (f := fun s => lvec (l3 (res_pose2d obs (f s))) i).
  { intros s. cbn [map]. rewrite Ec. reflexivity. }
  cbn [fc_dim c_pose2d] in Hi.
  destruct (i_lt_3 i Hi) as [->|[->| ->]]; cbn -[wrap_angle] in *.
  - eapply dl_eq; [der | cbv beta; ring].
  - eapply dl_eq; [der | cbv beta; ring].
  - eapply dl_eq; [apply dl_wrap; [der | exact N] | cbv beta; ring].
Qed.

(** ** Factor2Poses2d *)
Lemma rot_zero c s x y a b : c * c + s * s = 1 ->
  (c * x + s * y - a = 0 /\ - s * x + c * y - b = 0 <-> x = c * a - s * b /\ y = s * a + c * b).
Proof.
  intros E. split.
  - intros [H1 H2]. assert (A : a = c * x + s * y) by lra. assert (B : b = - s * x + c * y) by lra. subst a b.
    split; [replace x with ((c * c + s * s) * x) at 1 by (rewrite E; ring) | replace y with ((c * c + s * s) * y) at 1 by (rewrite E; ring)]; ring.
  - intros [-> ->]. split.
    + replace (c * (c * a - s * b) + s * (s * a + c * b) - a) with ((c * c + s * s) * a - a) by ring. rewrite E. ring.
    + replace (- s * (c * a - s * b) + c * (s * a + c * b) - b) with ((c * c + s * s) * b - b) by ring. rewrite E. ring.
Qed.
Lemma cs1 a : cos a * cos a + sin a * sin a = 1.
Proof. pose proof (sin2_cos2 a) as H. unfold Rsqr in H. lra. Qed.
Lemma res_2poses2d_zero obs o t : res_2poses2d obs o t = v3zero <-> same_pose2 t (compose2 o obs).
Proof.
  unfold res_2poses2d, wrap3, v3sub, same_pose2, compose2. cbn [vx vy vz].
  rewrite v3_zero_iff, wrap_angle_0_iff, heading_sub.
  pose proof (rot_zero (cos (vz o)) (sin (vz o)) (vx t - vx o) (vy t - vy o) (vx obs) (vy obs) (cs1 _)) as [Q1 Q2].
  split.
  - intros (A & B & [k K]). destruct Q1 as [Q Q']; [split; auto|]. repeat split; try lra. exists k. lra.
  - intros (A & B & [k K]). destruct Q2 as [Q Q']; [split; lra|]. repeat split; auto. exists k. lra.
Qed.
Lemma poses2d_zero obs init o t : zero_residual (c_2poses2d obs init) [P2 o; P2 t] <-> same_pose2 t (compose2 o obs).
Proof. unfold c_2poses2d. rewrite (zero3 _ _ _ _ _ _ (res_2poses2d obs o t)) by reflexivity. apply res_2poses2d_zero. Qed.
Lemma poses2d_jac obs init o t : wrap_angle (vz t - vz o - vz obs) <> - PI -> jacobian_at (c_2poses2d obs init) [P2 o; P2 t].
Proof.
  intros N cs ds H i Hi. apply tangents_2 in H as (c1 & c2 & d1 & d2 & -> & -> & (E1 & f & Ec1 & (F1 & F2 & F3)) & (E2 & g & Ec2 & (G1 & G2 & G3))).
  rewrite Ec1 in E1. injection E1 as E1. rewrite Ec2 in E2. injection E2 as E2. subst o t.
  apply dl_ext with (f := fun s => lvec (l3 (res_2poses2d obs (f s) (g s))) i).
  { intros s. cbn [map]. rewrite Ec1, Ec2. reflexivity. }
  cbn [fc_dim c_2poses2d] in Hi.
  destruct (i_lt_3 i Hi) as [->|[->| ->]]; cbn -[wrap_angle] in *.
  - eapply dl_eq; [der | cbv beta; ring].
  - eapply dl_eq; [der | cbv beta; ring].
  - eapply dl_eq; [apply dl_wrap; [der | exact N] | cbv beta; ring].
Qed.

(** ** Factor2Poses2dOdom *)
Lemma odom_zero obs init o t : zero_residual (c_odom obs init) [P2 o; P2 t] <-> same_pose2 t (odom_prediction o obs).
Proof.
  unfold c_odom. rewrite (zero3 _ _ _ _ _ _ (res_odom obs o t)) by reflexivity.
  unfold res_odom, wrap3, v3sub, same_pose2, odom_prediction. cbn [vx vy vz]. rewrite v3_zero_iff, wrap_angle_0_iff, heading_sub.
  split; intros (A & B & [k K]); (repeat split; [lra | lra | exists (- k)%Z; rewrite opp_IZR; lra]).
Qed.
Lemma odom_der obs init f g d1 d2 : v3_derivative f 0 (dx3 d1) -> v3_derivative g 0 (dx3 d2) ->
  wrap_angle (vz (f 0) + vx obs + vz obs - vz (g 0)) <> - PI ->
  let r := fun (i : nat) (s : R) => fc_res (c_odom obs init) [P2 (f s); P2 (g s)] i in
  derivable_pt_lim (r 0%nat) 0 (d1 0%nat - vy obs * sin (vz (f 0) + vx obs) * d1 2%nat - d2 0%nat) /\
  derivable_pt_lim (r 1%nat) 0 (d1 1%nat + vy obs * cos (vz (f 0) + vx obs) * d1 2%nat - d2 1%nat) /\
  derivable_pt_lim (r 2%nat) 0 (d1 2%nat - d2 2%nat).
Proof.
  intros (F1 & F2 & F3) (G1 & G2 & G3) N r. unfold r. cbn -[wrap_angle] in *. repeat split.
  - eapply dl_eq; [der | cbv beta; ring].
  - eapply dl_eq; [der | cbv beta; ring].
  - eapply dl_eq; [apply dl_wrap; [der | exact N] | cbv beta; ring].
Qed.
Lemma dl_unique f x a b : derivable_pt_lim f x a -> derivable_pt_lim f x b -> a = b.
Proof. intros. eapply uniqueness_limite; eauto. Qed.
(** the straight curve of a planar pose *)
Lemma straight2 x d : tangent (fun s => P2 (v3add x (v3scal s (dx3 d)))) (P2 x) d.
Proof.
  split. { f_equal. destruct x. unfold v3add, v3scal. cbn. f_equal; ring. }
  exists (fun s => v3add x (v3scal s (dx3 d))). split; [reflexivity|].
  repeat split; cbn [v3add v3scal vx vy vz]; (eapply dl_eq; [der | cbv beta; ring]).
Qed.
Lemma cos_sin_same a b : cos a = cos b -> sin a = sin b -> same_heading a b.
Proof.
  intros C S. assert (E : cos (a - b) = 1). { rewrite cos_minus, C, S. apply cs1. }
  assert (E2 : sin (a - b) = 0). { rewrite sin_minus, C, S. ring. }
  destruct (wrap_angle_spec (a - b)) as [[L U] [k K]]. destruct (wrap_angle_trig (a - b)) as [T1 T2].
  rewrite E in T2. rewrite E2 in T1.
  assert (Z : wrap_angle (a - b) = 0).
  { pose proof PI_RGT_0. destruct (Rtotal_order (wrap_angle (a - b)) 0) as [Q|[Q|Q]]; auto.
    - destruct (Req_dec (wrap_angle (a - b)) (- PI)) as [Q'|Q'].
      + rewrite Q', cos_neg, cos_PI in T2. lra.
      + pose proof (sin_lt_0_var (wrap_angle (a - b)) ltac:(lra) Q). lra.
    - pose proof (sin_gt_0 (wrap_angle (a - b)) Q U). lra. }
  rewrite Z in K. exists (- k)%Z. rewrite opp_IZR. lra.
Qed.
Lemma odom_jac_iff obs init o t : wrap_angle (vz o + vx obs + vz obs - vz t) <> - PI ->
  (jacobian_at (c_odom obs init) [P2 o; P2 t] <-> vy obs = 0 \/ same_heading (vx obs) 0).
Proof.
  intros N. split.
  - intros J. destruct (Req_dec (vy obs) 0) as [Z|Z]; [left; auto|right].
    set (e := fun k : nat => if (k =? 2)%nat then 1 else 0). set (z := fun k : nat => 0).
    specialize (J [fun s => P2 (v3add o (v3scal s (dx3 e))); fun s => P2 (v3add t (v3scal s (dx3 z)))] [e; z]
      (tangents_cons _ _ _ _ _ _ (straight2 o e) (tangents_cons _ _ _ _ _ _ (straight2 t z) tangents_nil))).
    assert (E0 : forall x d, v3add x (v3scal 0 (dx3 d)) = x). { intros [a b c] d. unfold v3add, v3scal. cbn. f_equal; ring. }
    destruct (odom_der obs init (fun s => v3add o (v3scal s (dx3 e))) (fun s => v3add t (v3scal s (dx3 z))) e z) as (D0 & D1 & _).
    { destruct (straight2 o e) as (_ & f & Ef & Hf). repeat split; cbn [v3add v3scal vx vy vz]; (eapply dl_eq; [der | cbv beta; ring]). }
    { repeat split; cbn [v3add v3scal vx vy vz]; (eapply dl_eq; [der | cbv beta; ring]). }
    { rewrite !E0. exact N. }
    rewrite E0 in D0, D1.
    pose proof (dl_unique _ _ _ _ D0 (J 0%nat ltac:(cbn; lia))) as Q0.
    pose proof (dl_unique _ _ _ _ D1 (J 1%nat ltac:(cbn; lia))) as Q1.
    cbn in Q0, Q1.
    assert (S0 : sin (vz o + vx obs) = sin (vz o)) by nra.
    assert (C0 : cos (vz o + vx obs) = cos (vz o)) by nra.
    destruct (cos_sin_same _ _ C0 S0) as [k K]. exists k. lra.
  - intros Z cs ds H i Hi. apply tangents_2 in H as (c1 & c2 & d1 & d2 & -> & -> & (E1 & f & Ec1 & Hf) & (E2 & g & Ec2 & Hg)).
    rewrite Ec1 in E1. injection E1 as E1. rewrite Ec2 in E2. injection E2 as E2. subst o t.
    destruct (odom_der obs init f g d1 d2 Hf Hg N) as (D0 & D1 & D2).
    assert (T : vy obs * sin (vz (f 0) + vx obs) = vy obs * sin (vz (f 0)) /\ vy obs * cos (vz (f 0) + vx obs) = vy obs * cos (vz (f 0))).
    { destruct Z as [Z|[k Z]]. { rewrite Z. split; ring. } rewrite Z, Rplus_0_l, sin_period_Z, cos_period_Z. auto. }
    destruct T as [T1 T2].
    apply dl_ext with (f := fun s => fc_res (c_odom obs init) [P2 (f s); P2 (g s)] i).
    { intros s. cbn [map]. rewrite Ec1, Ec2. reflexivity. }
    cbn [fc_dim c_odom] in Hi.
    destruct (i_lt_3 i Hi) as [->|[->| ->]]; (eapply dl_eq; [eassumption|]); cbn; try rewrite T1; try rewrite T2; ring.
Qed.
(** the correct third column *)
Definition odom_jac_correct (obs : V3) (o : V3) : list (list R) :=
  [[1; 0; - vy obs * sin (vz o + vx obs); -1; 0; 0]; [0; 1; vy obs * cos (vz o + vx obs); 0; -1; 0]; [0; 0; 1; 0; 0; -1]].
