(** The logarithm near the identity and the pose factors built on it. *)
Require Import Reals List Arith Lia Lra Psatz.
From Verif Require Import Lin LinFacts SO3 SE3 Angle AngleProofs SpecGeom TrigBounds SO3Exp SO3Ln SO3Misc SO3Dist SE3Alg SE3Exp SE3Ln.
From Verif Require Import Nodes NodesProofs Robust Graph Sums Solve Session Factors SpecFactors FactorsDer FactorsPlanar Factors3D.
Import ListNotations.
Local Open Scope R_scope.

Definition sk (A : M3) : V3 := mkV3 (a21 A - a12 A) (a02 A - a20 A) (a10 A - a01 A).
Definition htr (A : M3) : R := (m3trace A - 1) * (1 / 2).
Lemma skew_part k A : m3scal k (m3sub A (m3tr A)) = hat3 (v3scal k (sk A)).
Proof. unfold hat3, sk. lin. Qed.

(** continuity only at 0 is enough for a factor multiplying something that vanishes there *)
Lemma dl_prod_cont f g b : continuity_pt f 0 -> g 0 = 0 -> derivable_pt_lim g 0 b -> derivable_pt_lim (fun s => f s * g s) 0 (f 0 * b).
Proof.
  intros C G D eps He.
  set (e1 := Rmin 1 (eps / (2 * (Rabs b + 1)))). pose proof (Rabs_pos b) as Pb.
  assert (E1 : 0 < e1). { apply Rmin_glb_lt; [lra|]. apply Rdiv_lt_0_compat; lra. }
  set (e2 := eps / (2 * (Rabs (f 0) + 1))). pose proof (Rabs_pos (f 0)) as Pf.
  assert (E2 : 0 < e2). { apply Rdiv_lt_0_compat; lra. }
  destruct (continuity_near f 0 e1 C E1) as (d1 & Hd1 & H1). destruct (D e2 E2) as [d2 H2].
  assert (P : 0 < Rmin d1 d2) by (apply Rmin_glb_lt; auto; apply cond_pos).
  exists (mkposreal _ P). intros h h0 Hh. cbn [pos] in Hh.
  pose proof (Rmin_l d1 d2). pose proof (Rmin_r d1 d2).
  specialize (H2 h h0 ltac:(lra)). specialize (H1 (0 + h) ltac:(replace (0 + h - 0) with h by ring; lra)).
  rewrite G in *. rewrite Rplus_0_l in *.
  replace ((f h * g h - f 0 * 0) / h - f 0 * b) with ((f h - f 0) * b + f h * ((g h - 0) / h - b)) by (field; auto).
  set (q := (g h - 0) / h - b) in *.
  assert (F : Rabs (f h) < Rabs (f 0) + 1).
  { replace (f h) with (f 0 + (f h - f 0)) by ring. eapply Rle_lt_trans; [apply Rabs_triang|].
    apply Rplus_lt_compat_l. eapply Rlt_le_trans; [exact H1 | apply Rmin_l]. }
  eapply Rle_lt_trans; [apply Rabs_triang|]. rewrite !Rabs_mult.
  assert (X : Rabs (f h - f 0) * Rabs b <= eps / (2 * (Rabs b + 1)) * Rabs b).
  { apply Rmult_le_compat_r; auto. apply Rlt_le. eapply Rlt_le_trans; [exact H1 | apply Rmin_r]. }
  assert (Y : Rabs (f h) * Rabs q <= (Rabs (f 0) + 1) * Rabs q). { apply Rmult_le_compat_r; [apply Rabs_pos | lra]. }
  assert (Z : (Rabs (f 0) + 1) * Rabs q < (Rabs (f 0) + 1) * e2). { apply Rmult_lt_compat_l; lra. }
  assert (Z2 : (Rabs (f 0) + 1) * e2 = eps / 2). { unfold e2. field. lra. }
  assert (X2 : eps / (2 * (Rabs b + 1)) * Rabs b <= eps / 2).
  { replace (eps / (2 * (Rabs b + 1)) * Rabs b) with (eps / 2 * (Rabs b / (Rabs b + 1))) by (field; lra).
    rewrite <- (Rmult_1_r (eps / 2)) at 2. apply Rmult_le_compat_l; [lra|].
    apply (Rmult_le_reg_r (Rabs b + 1)); [lra|]. unfold Rdiv. rewrite Rmult_assoc, Rinv_l; lra. }
  lra.
Qed.

Lemma acos_lt x e : 0 < e < PI -> cos e < x <= 1 -> 0 <= acos x < e.
Proof.
  intros He [L U]. pose proof (COS_bound e). pose proof (acos_bound x). split; [lra|].
  destruct (Rlt_dec (acos x) e) as [Q|Q]; auto.
  pose proof (cos_decr_1 e (acos x) ltac:(lra) ltac:(lra) ltac:(lra) ltac:(lra) ltac:(lra)) as D.
  rewrite cos_acos in D; lra.
Qed.
Lemma cos_lt_1 e : 0 < e <= PI -> cos e < 1.
Proof. intros H. rewrite <- cos_0. apply cos_decreasing_1; lra. Qed.

Section Ln.
Variable F : R -> M4.
Hypothesis HS : forall s, short (F s).
Hypothesis HI : mR (F 0) = m3id.
Variable D : M4.
Hypothesis HD : m4_derivative F 0 D.
Let tr s := htr (mR (F s)).
Let o s := acos (tr s).
Lemma tr_le s : tr s <= 1.
Proof. unfold tr, htr. pose proof (short_trace _ (HS s)). lra. Qed.
Lemma tr_0 : tr 0 = 1. Proof. unfold tr, htr. rewrite HI. unfold m3trace, m3id. cbn. lra. Qed.
Lemma tr_cont : continuity_pt tr 0.
Proof.
  destruct HD as ((A0 & A1 & A2 & A3 & A4 & A5 & A6 & A7 & A8) & _).
  eapply dl_continuity. unfold tr, htr, m3trace. der.
Qed.
Lemma o_small e : 0 < e < PI -> exists d, 0 < d /\ forall s, Rabs (s - 0) < d -> 0 < tr s <= 1 /\ 0 <= o s < e.
Proof.
  intros He. set (k := Rmin (1 - cos e) (1/2)).
  assert (K : 0 < k). { apply Rmin_glb_lt; [|lra]. pose proof (cos_lt_1 e ltac:(lra)). lra. }
  destruct (continuity_near tr 0 k tr_cont K) as (d & Hd & H). exists d. split; auto.
  intros s Hs. specialize (H s Hs). rewrite tr_0 in H. apply Rabs_def2 in H. pose proof (tr_le s).
  pose proof (Rmin_l (1 - cos e) (1/2)) as K1. pose proof (Rmin_r (1 - cos e) (1/2)) as K2. fold k in K1, K2.
  split; [lra|]. apply acos_lt; auto. lra.
Qed.
Lemma o_0 : o 0 = 0. Proof. unfold o. rewrite tr_0. apply acos_1. Qed.
Lemma o_cont : continuity_pt o 0.
Proof.
  intros e He. set (e' := Rmin e 1).
  assert (E' : 0 < e' < PI). { split; [apply Rmin_glb_lt; lra|]. pose proof PI_gt_3. pose proof (Rmin_r e 1). fold e' in H0. lra. }
  destruct (o_small e' E') as (d & Hd & H). exists d. split; auto.
  intros s [_ Hs]. cbn in *. unfold R_dist in *. destruct (H s Hs) as [_ [L U]]. rewrite o_0, Rminus_0_r, Rabs_right by lra.
  eapply Rlt_le_trans; [exact U | apply Rmin_l].
Qed.
Let c1 s := 1/2 + o s * o s / 12.
Let k1 s := 1/12 + o s * o s / 720.
Lemma oo_cont : continuity_pt (fun s => o s * o s) 0.
Proof. apply continuity_pt_mult; exact o_cont. Qed.
Lemma c1_cont : continuity_pt c1 0.
Proof.
  unfold c1, Rdiv. apply (continuity_pt_plus (fun _ => 1 * / 2) (fun s => o s * o s * / 12)).
  - apply continuity_pt_const. intros x y. reflexivity.
  - apply (continuity_pt_mult (fun s => o s * o s) (fun _ => / 12)). exact oo_cont. apply continuity_pt_const. intros x y. reflexivity.
Qed.
Lemma k1_cont : continuity_pt k1 0.
Proof.
  unfold k1, Rdiv. apply (continuity_pt_plus (fun _ => 1 * / 12) (fun s => o s * o s * / 720)).
  - apply continuity_pt_const. intros x y. reflexivity.
  - apply (continuity_pt_mult (fun s => o s * o s) (fun _ => / 720)). exact oo_cont. apply continuity_pt_const. intros x y. reflexivity.
Qed.
Let om s := v3scal (c1 s) (sk (mR (F s))).
Lemma near_ln : exists d, 0 < d /\ forall s, Rabs (s - 0) < d ->
  se3_ln_vee (F s) = mkV6 (om s) (m3app (rod (- (1/2)) (k1 s) (om s)) (mt (F s))).
Proof.
  destruct (o_small (1 / 100000)) as (d & Hd & H). { pose proof PI_gt_3. lra. }
  exists d. split; auto. intros s Hs. destruct (H s Hs) as [T O].
  assert (E : so3_ln (mR (F s)) = (hat3 (om s), o s)).
  { unfold so3_ln. cbv zeta. fold (htr (mR (F s))). fold (tr s).
    rewrite (proj2 (Rltb_iff (-1 + 1) (tr s))) by lra.
    assert (A : acos_d (tr s) = Some (o s)).
    { unfold acos_d. destruct (Rle_dec (-1) (tr s)); [|lra]. destruct (Rle_dec (tr s) 1); [reflexivity | lra]. }
    rewrite A, (proj2 (Rltb_iff (o s) (1 / 100000))) by lra. rewrite skew_part. reflexivity. }
  rewrite (se3_ln_vee_block _ _ _ E). do 3 f_equal.
  unfold se3_ln_k1. rewrite (proj2 (Rltb_niff (5/1000) (o s))) by lra. reflexivity.
Qed.
Lemma om_0 : om 0 = v3zero.
Proof. unfold om. rewrite HI. generalize (c1 0). intros k. apply v3_eq; cbn; ring. Qed.
Lemma om_der : v3_derivative om 0 (v3scal (1/2) (sk (mR D))).
Proof.
  destruct HD as ((A0 & A1 & A2 & A3 & A4 & A5 & A6 & A7 & A8) & _).
  assert (C : c1 0 = 1/2) by (unfold c1; rewrite o_0; lra).
  unfold om, v3_derivative, sk. cbn [v3scal vx vy vz]. rewrite <- C.
  repeat split; (apply dl_prod_cont; [exact c1_cont | rewrite HI; cbn; ring | der]).
Qed.
(** derivative of the logarithm at a pure translation *)
Lemma ln_der : v3_derivative (fun s => v6w (se3_ln_vee (F s))) 0 (v3scal (1/2) (sk (mR D))) /\
  v3_derivative (fun s => v6v (se3_ln_vee (F s))) 0 (v3sub (mt D) (v3scal (1/2) (v3cross (v3scal (1/2) (sk (mR D))) (mt (F 0))))).
Proof.
  destruct near_ln as (d & Hd & H). split.
  - eapply v3_der_near; [exact Hd | | exact om_der]. intros s Hs. cbv beta. rewrite (H s Hs). reflexivity.
  - set (w' := v3scal (1/2) (sk (mR D))).
    eapply v3_der_near with (f := fun s => v3add (v3add (mt (F s)) (v3scal (- (1/2)) (v3cross (om s) (mt (F s)))))
        (v3scal (k1 s) (v3cross (om s) (v3cross (om s) (mt (F s)))))); [exact Hd | |].
    { intros s Hs. cbv beta. rewrite (H s Hs). cbn [v6v]. unfold rod, hat3. generalize (om s), (mt (F s)), (k1 s). clear. lin. }
    pose proof om_der as O. fold w' in O. pose proof om_0 as Z.
    pose proof (f_equal vx Z) as Z1. pose proof (f_equal vy Z) as Z2. pose proof (f_equal vz Z) as Z3. cbn [v3zero vx vy vz] in Z1, Z2, Z3.
    destruct O as (O1 & O2 & O3). destruct HD as (_ & (T1 & T2 & T3) & _).
    clearbody w'.
    assert (Q : forall g b, g 0 = 0 -> derivable_pt_lim g 0 b -> b = 0 -> derivable_pt_lim (fun s => k1 s * g s) 0 0).
    { intros g b G0 Gd B. subst b. eapply dl_eq; [apply dl_prod_cont; [exact k1_cont | exact G0 | exact Gd] | ring]. }
    unfold v3_derivative, v3cross. cbn [v3scal v3add v3sub vx vy vz].
    repeat split.
    + eapply dl_eq; [apply dl_plus; [der | eapply Q; [| der |]; cbv beta; rewrite ?Z1, ?Z2, ?Z3; ring] | cbv beta; rewrite ?Z1, ?Z2, ?Z3; field].
    + eapply dl_eq; [apply dl_plus; [der | eapply Q; [| der |]; cbv beta; rewrite ?Z1, ?Z2, ?Z3; ring] | cbv beta; rewrite ?Z1, ?Z2, ?Z3; field].
    + eapply dl_eq; [apply dl_plus; [der | eapply Q; [| der |]; cbv beta; rewrite ?Z1, ?Z2, ?Z3; ring] | cbv beta; rewrite ?Z1, ?Z2, ?Z3; field].
Qed.
End Ln.

(** ** curves of products *)
Lemma m4_der_mul F G A B : m4_derivative F 0 A -> m4_derivative G 0 B ->
  m4_derivative (fun s => m4mul (F s) (G s)) 0 (m4add (m4mul A (G 0)) (m4mul (F 0) B)).
Proof.
  intros ((?&?&?&?&?&?&?&?&?) & (?&?&?) & (?&?&?) & ?) ((?&?&?&?&?&?&?&?&?) & (?&?&?) & (?&?&?) & ?).
  unfold m4_derivative, m3_derivative, v3_derivative. lc; lc. mder.
Qed.
Lemma m4_der_const A : m4_derivative (fun _ => A) 0 m4zero.
Proof. unfold m4_derivative, m3_derivative, v3_derivative. lc. repeat split; apply dl_const. Qed.
Lemma m4_der_eq F A B : m4_derivative F 0 A -> A = B -> m4_derivative F 0 B. Proof. intros; subst; auto. Qed.
Lemma m4_der_inv F d : affine (F 0) -> m4_derivative F 0 (m4mul (twist d) (F 0)) ->
  m4_derivative (fun s => se3_inv (F s)) 0 (m4scal (-1) (m4mul (se3_inv (F 0)) (twist d))).
Proof.
  intros A H. pose proof (inv_R_der F d A H) as HR. pose proof (inv_t_der F d A H) as HT.
  unfold m4_derivative. split; [|split; [|split]].
  - eapply m3_der_eq; [exact HR|]. unfold twist, se3_inv, hat3. cbn [mR]. generalize (m3tr (mR (F 0))). intros Q. destruct Q, d as [[? ? ?] [? ? ?]]. cbn [m4scal m4mul mR mt mb mc]. lin.
  - eapply v3_der_eq; [exact HT|]. unfold twist, se3_inv. cbn [mR]. generalize (m3tr (mR (F 0))), (m3app (m3opp (m3tr (mR (F 0)))) (mt (F 0))). intros Q t. destruct Q, t, d as [[? ? ?] [? ? ?]]. cbn [m4scal m4mul mR mt mb mc]. lin.
  - unfold se3_inv, twist. cbn [mb m4scal m4mul mR mt mc]. eapply v3_der_eq; [apply v3_der_const|]. clear. destruct d as [[? ? ?] [? ? ?]]. lin.
  - unfold se3_inv, twist. cbn [mb m4scal m4mul mR mt mc]. eapply dl_eq; [apply dl_const|]. unfold v3zero, v3dot. cbn. ring.
Qed.
Lemma twist_parts d e : sk (mR (m4sub (twist d) (twist e))) = v3scal 2 (v3sub (v6w d) (v6w e)) /\ mt (m4sub (twist d) (twist e)) = v3sub (v6v d) (v6v e).
Proof. destruct d as [[? ? ?] [? ? ?]], e as [[? ? ?] [? ? ?]]. unfold twist, sk. split; lin. Qed.

(** ** Factor1Pose3d *)
Lemma pose3d_curve Tobs F d : rigid Tobs -> rigid (F 0) -> m4_derivative F 0 (m4mul (twist d) (F 0)) ->
  m4_derivative (fun s => se3_mul (F s) (se3_inv Tobs)) 0 (m4mul (twist d) (se3_mul (F 0) (se3_inv Tobs))).
Proof.
  intros HO H0 HD. unfold se3_mul. eapply m4_der_eq; [apply m4_der_mul; [exact HD | apply m4_der_const]|].
  cbv beta. rewrite m4mul_assoc. generalize (m4mul (twist d) (m4mul (F 0) (se3_inv Tobs))), (F 0). clear. lin.
Qed.
(** residual of the prior along a curve, when the rotations agree *)
Lemma pose3d_der Tobs F d : rigid Tobs -> rigid (F 0) -> (forall s, short (F s)) -> mR (F 0) = mR Tobs ->
  m4_derivative F 0 (m4mul (twist d) (F 0)) ->
  let t0 := v3sub (mt (F 0)) (mt Tobs) in
  v3_derivative (fun s => v6w (res_pose3d Tobs (F s))) 0 (v6w d) /\
  v3_derivative (fun s => v6v (res_pose3d Tobs (F s))) 0 (v3add (v6v d) (v3scal (1/2) (v3cross (v6w d) t0))).
Proof.
  intros HO H0 HS HR HD t0.
  assert (E0 : se3_mul (F 0) (se3_inv Tobs) = se3_of_Rt m3id t0).
  { unfold se3_mul, t0. rewrite (rigid_form _ H0), (rigid_form _ HO), inv_of_Rt, mul_of_Rt. cbn [mR mt se3_of_Rt]. rewrite HR.
    rewrite (rotation_rinv _ (proj1 HO)). f_equal.
    replace (m3app (mR Tobs) (v3opp (m3app (m3tr (mR Tobs)) (mt Tobs)))) with (v3opp (m3app (m3mul (mR Tobs) (m3tr (mR Tobs))) (mt Tobs)))
      by (rewrite m3app_mul; generalize (m3app (m3tr (mR Tobs)) (mt Tobs)), (mR Tobs); lin).
    rewrite (rotation_rinv _ (proj1 HO)), m3app_id. generalize (mt (F 0)), (mt Tobs). lin. }
  pose proof (pose3d_curve Tobs F d HO H0 HD) as C. rewrite E0 in C.
  destruct (ln_der (fun s => se3_mul (F s) (se3_inv Tobs))) with (D := m4mul (twist d) (se3_of_Rt m3id t0)) as [A B].
  - intros s. apply short_mul; auto. apply short_inv, rigid_short, HO.
  - cbv beta. rewrite E0. reflexivity.
  - exact C.
  - cbv beta in A, B. rewrite E0 in B. unfold res_pose3d. split.
    + eapply v3_der_eq; [exact A|]. clear. destruct d as [[a b c] [? ? ?]], t0. unfold twist, sk, se3_of_Rt. lin_unfold. apply v3_eq; field.
    + eapply v3_der_eq; [exact B|]. clear. destruct d as [[a b c] [? ? ?]], t0. unfold twist, sk, se3_of_Rt. lin_unfold. apply v3_eq; field.
Qed.
Lemma pose3d_jac_zero T : rigid T -> jacobian_at (c_pose3d T) [P3 T].
Proof.
  intros HT cs ds H i Hi. apply tangents_1 in H as (c & d & -> & -> & (E0 & F & Ec & SF & DF)).
  rewrite Ec in E0. injection E0 as E0. subst T.
  destruct (pose3d_der (F 0) F (dx6 d) HT HT SF eq_refl DF) as ((A1 & A2 & A3) & (B1 & B2 & B3)).
  apply dl_ext with (f := fun s => lvec (l6 (res_pose3d (F 0) (F s))) i).
  { intros s. cbn [map]. rewrite Ec. reflexivity. }
  cbn [fc_dim c_pose3d] in Hi.
  destruct (i_lt_6 i Hi) as [->|[->|[->|[->|[->| ->]]]]]; cbn [l6 l3 app lvec nth];
  (eapply dl_eq; [eassumption | cbn; unfold v3sub; cbn; field]).
Qed.
(** a rigid curve with a prescribed velocity *)
Lemma exp_tangent T d E : rigid T -> is_exp_curve4 (twist (dx6 d)) E -> (forall s, rigid (E s)) -> tangent (fun s => P3 (m4mul (E s) T)) (P3 T) d.
Proof.
  intros HT [E0 HE] HR. split. { rewrite E0, m4mul_id_l. reflexivity. }
  exists (fun s => m4mul (E s) T). split; [reflexivity|]. split. { intros s. apply rigid_short, rigid_mul; auto. }
  eapply m4_der_eq; [apply m4_der_mul; [apply HE | apply m4_der_const]|]. rewrite E0, m4mul_id_r. generalize (m4mul (twist (dx6 d)) T). clear. lin.
Qed.
Lemma twist_hat6 d : twist d = hat6 d.
Proof. destruct d as [[? ? ?] [? ? ?]]. reflexivity. Qed.
(** se3_of_vec (s d): the increments the solver applies *)
Lemma exp_small_coeffs w s : Rabs s * v3norm w < 1 / 100000 ->
  so3_of_vec (v3scal s w) = rod ((1 - s * s * v3sqn w / 6) * s) ((1/2 - s * s * v3sqn w / 24) * (s * s)) w /\
  Vmat (v3scal s w) = rod ((1/2 - s * s * v3sqn w / 24) * s) ((1/6 - s * s * v3sqn w / 120) * (s * s)) w.
Proof.
  intros H. assert (N : v3norm (v3scal s w) < 1 / 100000) by (rewrite v3norm_scal; auto).
  assert (Q : v3sqn (v3scal s w) = s * s * v3sqn w) by lin.
  split.
  - rewrite so3_of_vec_rod. unfold so3_exp_c1, so3_exp_c2. rewrite (proj2 (Rltb_iff _ _) N), Q, rod_scal. reflexivity.
  - unfold Vmat, se3_exp_c2, se3_exp_c3. rewrite (proj2 (Rltb_niff (1/1000) _)) by lra. rewrite Q, rod_scal. reflexivity.
Qed.
Lemma small_s n : 0 <= n -> exists d, 0 < d /\ forall s, Rabs (s - 0) < d -> Rabs s * n < 1 / 100000.
Proof.
  intros Hn. exists (1 / 100000 / (n + 1)). split. { apply Rdiv_lt_0_compat; lra. }
  intros s Hs. rewrite Rminus_0_r in Hs.
  assert (Rabs s * (n + 1) < 1 / 100000). { apply (Rmult_lt_compat_r (n + 1)) in Hs; [|lra]. unfold Rdiv at 1 in Hs. rewrite Rmult_assoc, Rinv_l in Hs; lra. }
  pose proof (Rabs_pos s). nra.
Qed.
Lemma m4_der_near F G A d : 0 < d -> (forall s, Rabs (s - 0) < d -> G s = F s) -> m4_derivative F 0 A -> m4_derivative G 0 A.
Proof.
  intros D E ((?&?&?&?&?&?&?&?&?) & (?&?&?) & (?&?&?) & ?).
  unfold m4_derivative, m3_derivative, v3_derivative.
  repeat match goal with |- _ /\ _ => split end; (eapply dl_near; [exact D | intros; cbv beta; rewrite E; [reflexivity | auto] | assumption]).
Qed.
Lemma se3_of_vec_der xi : m4_derivative (fun s => se3_of_vec (v6scal s xi)) 0 (twist xi).
Proof.
  destruct xi as [w v]. destruct (small_s (v3norm w) (v3norm_nonneg w)) as (d & Hd & H).
  eapply m4_der_near with (F := fun s => se3_of_Rt (rod ((1 - s * s * v3sqn w / 6) * s) ((1/2 - s * s * v3sqn w / 24) * (s * s)) w)
     (m3app (rod ((1/2 - s * s * v3sqn w / 24) * s) ((1/6 - s * s * v3sqn w / 120) * (s * s)) w) (v3scal s v))); [exact Hd | |].
  { intros s Hs. rewrite se3_of_vec_block. cbn [v6scal v6w v6v]. destruct (exp_small_coeffs w s (H s Hs)) as [-> ->]. reflexivity. }
  generalize (v3sqn w). intros q. destruct w as [a b c], v as [x y z]. clear.
  unfold m4_derivative, m3_derivative, v3_derivative, rod, hat3, twist, se3_of_Rt, Rdiv. lc.
  repeat match goal with |- _ /\ _ => split end; (eapply dl_eq; [der | cbv beta; field]).
Qed.
Lemma se3_of_vec_short xi : short (se3_of_vec xi).
Proof.
  rewrite se3_of_vec_block. split; [|split; reflexivity]. intros v. cbn [mR se3_of_Rt].
  destruct (near_rotation_exp (v6w xi)) as [_ N]. apply N.
Qed.
Lemma dx6_scal s d : dx6 (fun k => s * d k) = v6scal s (dx6 d). Proof. reflexivity. Qed.
Lemma update_aux_tangent T d : rigid T -> tangent (fun s => val_update_aux (P3 T) (fun k => s * d k)) (P3 T) d.
Proof.
  intros HT. split.
  - cbn [val_update_aux]. rewrite dx6_scal. unfold se3_update_lhs. f_equal.
    replace (v6scal 0 (dx6 d)) with (mkV6 v3zero v3zero) by (generalize (dx6 d); intros; lin_destruct; lin_unfold; apply v6_eq; apply v3_eq; ring).
    rewrite se3_exp_zero_rot. apply m4mul_id_l.
  - exists (fun s => se3_update_lhs T (v6scal s (dx6 d))). split; [reflexivity|]. split.
    { intros s. apply short_mul; [apply se3_of_vec_short | apply rigid_short, HT]. }
    unfold se3_update_lhs. eapply m4_der_eq; [apply m4_der_mul; [apply se3_of_vec_der | apply m4_der_const]|].
    cbv beta. generalize (m4mul (twist (dx6 d)) T), (se3_of_vec (v6scal 0 (dx6 d))). clear. lin.
Qed.
(** the Jacobian of the prior is wrong as soon as the translations differ *)
Definition dir3 (k : nat) : nat -> R := fun j => if (j =? k)%nat then 1 else 0.
Lemma pose3d_jac_iff Tobs T : rigid Tobs -> rigid T -> mR T = mR Tobs ->
  (jacobian_at (c_pose3d Tobs) [P3 T] <-> T = Tobs).
Proof.
  intros HO HT HR. split; [|intros ->; apply pose3d_jac_zero; auto].
  intros J. set (t0 := v3sub (mt T) (mt Tobs)).
  assert (K : forall k i, (3 <= i < 6)%nat -> (k < 3)%nat ->
     lvec (l3 (v3cross (dx3 (dir3 k)) t0)) (i - 3) = 0).
  { intros k i Hi Hk. set (d := dir3 k). set (F := fun s => se3_update_lhs T (v6scal s (dx6 d))).
    destruct (update_aux_tangent T d HT) as (E0 & F' & EF & SF & DF).
    assert (E : forall s, F' s = F s). { intros s. specialize (EF s). cbn [val_update_aux] in EF. injection EF as EF. rewrite <- EF. reflexivity. }
    assert (F0 : F' 0 = T). { rewrite EF in E0. injection E0; auto. }
    assert (T0 : tangents [fun s => P3 (F' s)] [P3 T] [d]).
    { repeat constructor; [rewrite F0; reflexivity|]. exists F'. auto. }
    specialize (J _ _ T0 i ltac:(cbn; lia)). rewrite <- F0 in DF.
    destruct (pose3d_der Tobs F' (dx6 d) HO ltac:(rewrite F0; auto) SF ltac:(rewrite F0; auto) DF) as (_ & (B1 & B2 & B3)).
    rewrite F0 in B1, B2, B3. fold t0 in B1, B2, B3.
    assert (Z : forall j, (3 <= j < 6)%nat -> d j = 0).
    { intros j Hj. unfold d, dir3. destruct (Nat.eqb_spec j k); auto. lia. }
    change (fun s => fc_res (c_pose3d Tobs) (map (fun f => f s) [fun s0 => P3 (F' s0)]) i) with (fun s => lvec (l6 (res_pose3d Tobs (F' s))) i) in J.
    pose proof (Z 3%nat ltac:(lia)) as Z3. pose proof (Z 4%nat ltac:(lia)) as Z4. pose proof (Z 5%nat ltac:(lia)) as Z5.
    clearbody d t0.
    assert (C : i = 3%nat \/ i = 4%nat \/ i = 5%nat) by lia.
    destruct C as [->|[->| ->]]; cbn [l6 l3 app lvec nth] in J.
    - pose proof (dl_unique _ _ _ _ J B1) as Q. cbn in Q. unfold v3cross. cbn [Nat.sub lvec l3 nth vx vy vz]. rewrite Z3, Z4, Z5 in Q. unfold dx3. cbn [vx vy vz]. lra.
    - pose proof (dl_unique _ _ _ _ J B2) as Q. cbn in Q. unfold v3cross. cbn [Nat.sub lvec l3 nth vx vy vz]. rewrite Z3, Z4, Z5 in Q. unfold dx3. cbn [vx vy vz]. lra.
    - pose proof (dl_unique _ _ _ _ J B3) as Q. cbn in Q. unfold v3cross. cbn [Nat.sub lvec l3 nth vx vy vz]. rewrite Z3, Z4, Z5 in Q. unfold dx3. cbn [vx vy vz]. lra. }
  assert (T0 : t0 = v3zero).
  { pose proof (K 0%nat 4%nat ltac:(lia) ltac:(lia)) as K1. pose proof (K 0%nat 5%nat ltac:(lia) ltac:(lia)) as K2.
    pose proof (K 1%nat 5%nat ltac:(lia) ltac:(lia)) as K3. destruct t0 as [x y z]. cbn in K1, K2, K3. unfold v3zero. f_equal; lra. }
  rewrite (rigid_form T HT), (rigid_form Tobs HO), HR. f_equal. revert T0. unfold t0. destruct (mt T), (mt Tobs). unfold v3sub, v3zero. cbn.
  intros Q. injection Q as Q1 Q2 Q3. f_equal; lra.
Qed.
Lemma v6_zero_iff u : u = v6zero <-> forall i, (i < 6)%nat -> lvec (l6 u) i = 0.
Proof.
  split.
  - intros -> i Hi. destruct (i_lt_6 i Hi) as [->|[->|[->|[->|[->| ->]]]]]; reflexivity.
  - intros H. destruct u as [[a b c] [x y z]].
    pose proof (H 0%nat ltac:(lia)) as H0. pose proof (H 1%nat ltac:(lia)) as H1. pose proof (H 2%nat ltac:(lia)) as H2.
    pose proof (H 3%nat ltac:(lia)) as H3. pose proof (H 4%nat ltac:(lia)) as H4. pose proof (H 5%nat ltac:(lia)) as H5.
    cbn in *. subst. reflexivity.
Qed.
Lemma se3_ln_vee_id : se3_ln_vee m4id = v6zero.
Proof. rewrite (se3_ln_vee_block m4id v3zero 0 ln_id). rewrite rod_zero, m3app_id. reflexivity. Qed.
Lemma pose3d_zero_eq T : rigid T -> zero_residual (c_pose3d T) [P3 T].
Proof.
  intros HT. change (forall i, (i < 6)%nat -> lvec (l6 (res_pose3d T T)) i = 0). apply v6_zero_iff.
  unfold res_pose3d, se3_mul. rewrite rigid_rinv by auto. apply se3_ln_vee_id.
Qed.
Lemma pose3d_zero_only Tobs T : rigid Tobs -> rigid T -> zero_residual (c_pose3d Tobs) [P3 T] ->
  T = Tobs \/ fixes (m3mul (mR T) (m3tr (mR Tobs))) (mkV3 1 1 0) \/ fixes (m3mul (mR T) (m3tr (mR Tobs))) (mkV3 1 (-1) 0).
Proof.
  intros HO HT Z. apply se3_distance_zero; auto.
  change (forall i, (i < 6)%nat -> lvec (l6 (res_pose3d Tobs T)) i = 0) in Z. apply v6_zero_iff in Z.
  unfold se3_distance. unfold res_pose3d in Z. rewrite Z. unfold v6norm. replace (v6dot v6zero v6zero) with 0 by lin. apply sqrt_0.
Qed.

(** ** Factor2Poses3d *)
Lemma tr_rigid Tobs A B : rigid Tobs -> rigid A -> rigid B -> rigid (tr_2poses3d Tobs A B).
Proof. intros. unfold tr_2poses3d, se3_mul. auto using rigid_mul, rigid_inv. Qed.
Lemma tr_id_iff Tobs A B : rigid Tobs -> rigid A -> rigid B -> (tr_2poses3d Tobs A B = m4id <-> B = m4mul A Tobs).
Proof.
  intros HO HA HB. unfold tr_2poses3d, se3_mul. split.
  - intros E. rewrite <- (m4mul_id_l B), <- E, m4mul_assoc, rigid_linv, m4mul_id_r by auto. reflexivity.
  - intros ->. apply rigid_rinv. apply rigid_mul; auto.
Qed.
Lemma poses3d_zero_eq Tobs init A : rigid Tobs -> rigid A -> zero_residual (c_2poses3d Tobs init) [P3 A; P3 (m4mul A Tobs)].
Proof.
  intros HO HA. change (forall i, (i < 6)%nat -> lvec (l6 (res_2poses3d Tobs A (m4mul A Tobs))) i = 0). apply v6_zero_iff.
  unfold res_2poses3d. rewrite (proj2 (tr_id_iff Tobs A (m4mul A Tobs) HO HA (rigid_mul _ _ HA HO)) eq_refl). apply se3_ln_vee_id.
Qed.
Lemma ln_zero_only T : rigid T -> se3_ln_vee T = v6zero -> T = m4id \/ fixes (mR T) (mkV3 1 1 0) \/ fixes (mR T) (mkV3 1 (-1) 0).
Proof.
  intros HT Z. pose proof (se3_distance_zero T m4id HT rigid_id) as D.
  assert (E : se3_mul T (se3_inv m4id) = T).
  { unfold se3_mul. replace (se3_inv m4id) with m4id; [apply m4mul_id_r|]. unfold se3_inv. cbn [mR mt]. lin. }
  unfold se3_distance in D. rewrite E, Z in D.
  assert (N : v6norm v6zero = 0). { unfold v6norm. replace (v6dot v6zero v6zero) with 0 by lin. apply sqrt_0. }
  specialize (D N). cbn [mR m4id] in D. rewrite m3tr_id, m3mul_id_r in D. exact D.
Qed.
Lemma poses3d_zero_only Tobs init A B : rigid Tobs -> rigid A -> rigid B -> zero_residual (c_2poses3d Tobs init) [P3 A; P3 B] ->
  B = m4mul A Tobs \/ fixes (mR (tr_2poses3d Tobs A B)) (mkV3 1 1 0) \/ fixes (mR (tr_2poses3d Tobs A B)) (mkV3 1 (-1) 0).
Proof.
  intros HO HA HB Z. change (forall i, (i < 6)%nat -> lvec (l6 (res_2poses3d Tobs A B)) i = 0) in Z. apply v6_zero_iff in Z.
  destruct (ln_zero_only _ (tr_rigid _ _ _ HO HA HB) Z) as [E|E]; [left|right; exact E]. apply tr_id_iff in E; auto.
Qed.
Lemma poses3d_jac Tobs init A : rigid Tobs -> rigid A -> jacobian_at (c_2poses3d Tobs init) [P3 A; P3 (m4mul A Tobs)].
Proof.
  intros HO HA cs ds H i Hi.
  apply tangents_2 in H as (c1 & c2 & d1 & d2 & -> & -> & (E1 & F & Ec1 & SF & DF) & (E2 & G & Ec2 & SG & DG)).
  rewrite Ec1 in E1. injection E1 as E1. rewrite Ec2 in E2. injection E2 as E2. rewrite <- E2 in DG. rewrite <- E1 in DF.
  assert (HB : rigid (G 0)) by (rewrite E2; apply rigid_mul; auto).
  assert (HA' : rigid (F 0)) by (rewrite E1; auto).
  set (Tr := fun s => tr_2poses3d Tobs (F s) (G s)).
  assert (I0 : Tr 0 = m4id). { unfold Tr. apply tr_id_iff; auto. rewrite E1. auto. }
  assert (DT : m4_derivative Tr 0 (m4sub (twist (dx6 d1)) (twist (dx6 d2)))).
  { unfold Tr, tr_2poses3d, se3_mul. eapply m4_der_eq.
    - apply m4_der_mul; [apply m4_der_mul; [exact DF | apply m4_der_const] | apply m4_der_inv; [apply rigid_affine; auto | exact DG]].
    - cbv beta. change (m4mul (m4mul (F 0) Tobs) (se3_inv (G 0)) = m4id) in I0.
      set (M := m4mul (F 0) Tobs) in *. set (Gi := se3_inv (G 0)) in *.
      transitivity (m4sub (m4mul (twist (dx6 d1)) (m4mul M Gi)) (m4mul (m4mul M Gi) (twist (dx6 d2)))).
      + unfold M. clear. generalize (twist (dx6 d1)), (twist (dx6 d2)), (F 0), Gi. clear. lin.
      + rewrite I0, m4mul_id_l, m4mul_id_r. reflexivity. }
  destruct (ln_der Tr) with (D := m4sub (twist (dx6 d1)) (twist (dx6 d2))) as [LA LB].
  { intros s. apply short_mul; [apply short_mul; [apply SF | apply rigid_short, HO] | apply short_inv, SG]. }
  { rewrite I0. reflexivity. }
  { exact DT. }
  destruct (twist_parts (dx6 d1) (dx6 d2)) as [P1 P2]. rewrite P1, I0 in LB. rewrite P1 in LA. rewrite P2 in LB. cbn [mt m4id] in LB.
  apply dl_ext with (f := fun s => lvec (l6 (se3_ln_vee (Tr s))) i).
  { intros s. cbn [map]. rewrite Ec1, Ec2. reflexivity. }
  destruct LA as (A1 & A2 & A3). destruct LB as (B1 & B2 & B3).
  assert (AD : tr_2poses3d Tobs A (m4mul A Tobs) = m4id). { apply tr_id_iff; auto. apply rigid_mul; auto. }
  cbn [c_2poses3d fc_jac]. unfold jac_2poses3d. rewrite AD.
  cbn [fc_dim c_2poses3d] in Hi.
  destruct (i_lt_6 i Hi) as [->|[->|[->|[->|[->| ->]]]]]; cbn [l6 l3 app lvec nth];
  (eapply dl_eq; [eassumption | unfold se3_adj, m4id, hat3; cbn; field]).
Qed.
Lemma poses3d_reversed Tobs A : rigid Tobs -> rigid A ->
  (tr_2poses3d Tobs (m4mul A Tobs) A = m4id <-> m4mul Tobs Tobs = m4id).
Proof.
  intros HO HA. rewrite tr_id_iff by auto using rigid_mul. rewrite m4mul_assoc. split.
  - intros E. apply (f_equal (m4mul (se3_inv A))) in E. rewrite <- m4mul_assoc, rigid_linv, m4mul_id_l in E by auto. auto.
  - intros ->. rewrite m4mul_id_r. reflexivity.
Qed.
