(** C82: 3D sessions in two coordinate frames. *)
Require Import Reals List Arith Lia Lra Psatz Bool.
From Verif Require Import Lin LinFacts SpecGeom TrigBounds SO3 SE3 SO3Exp SO3Ln SE3Exp SE3Ln SE3Alg Nodes NodesProofs Robust Graph GraphProofs Sums Solve SpecSolve SolveIndex SolveFrame SolveSums SolveBuild SolveProofs Session SessionProofs.
From Verif Require Import Factors SpecFactors FactorsPlanar FactorsSession SpecFrame SpecFrame3 Frame3Factors Frame3Session SpecSolvable SpecMapping Frame3Map PropFactors PropSO3 PropFrame PropMapping Gauss.
Import ListNotations.
Local Open Scope R_scope.

(** *** Costs do not depend on the coordinate frame
    A 3D session and the same session in moved coordinates: all states are moved
    copies of each other and chi2 is the same, for any rigid change of frame. *)
Theorem C82_costs : forall lin rob g cs cs', rigid g -> typed [] cs -> Forall2 (framed3 g) cs cs' ->
  exists s s', pycalls lin rob (solver_new world_new) cs = Some s /\ pycalls lin rob (solver_new world_new) cs' = Some s' /\
    Forall2 (moved3 g) (get_estimated_state (s_w s)) (get_estimated_state (s_w s')) /\
    (Forall (small_error g (state_of (s_w s))) cs -> snd (chi2 true (s_w s')) = snd (chi2 true (s_w s))).
Proof.
  intros lin rob g cs cs' Hg T F. destruct (frame_costs lin rob g cs cs' Hg T F) as (s & s' & E & E' & A & C). exists s, s'. split; auto. split; auto. split; auto. intros Sm.
  destruct (C66_sessions lin rob cs T) as (s0 & Q & _ & _ & _ & X). rewrite E in Q. injection Q as <-. destruct (C66_sessions lin rob cs' (framed3_typeds g cs [] cs' F T)) as (s0 & Q & _ & _ & _ & X'). rewrite E' in Q. injection Q as <-.
  rewrite X, X'. apply C; auto. intros i Hi. apply aligned_Forall2 in A. specialize (A i). unfold related in A.
  destruct (nth_error (get_estimated_state (s_w s)) i) as [v|] eqn:G. 2:{ apply nth_error_None in G. lia. } destruct (nth_error (get_estimated_state (s_w s')) i) as [v'|] eqn:G'; [|contradiction].
  rewrite (estimated_state_of _ _ _ G), (estimated_state_of _ _ _ G'). exact A.
Qed.
Print Assumptions C82_costs.

(** *** The information of a relative pose is about the origin of the map
    The observation is a pose relative to another pose, yet with the same observation and the
    same information matrix chi2 grows with the square of the distance of the
    poses from the origin. *)
Definition pair_calls (obs A B : M4) : list pycall := [CNode STANDARD (P3 A); CNode STANDARD (P3 B); C2Poses3d obs 0 1 id3 false].
Lemma pair_run obs A B : exists s, pycalls gauss QUADRATIC (solver_new world_new) (pair_calls obs A B) = Some s /\ state_of (s_w s) 0 = P3 A /\ state_of (s_w s) 1 = P3 B.
Proof. eexists. split; [cbv -[m4id id3 double IZR gauss res_landmark3d jac_landmark3d res_2poses3d jac_2poses3d init_2poses3d lvec lmat beside l3 l6 R0 R1]; reflexivity|]. split; reflexivity. Qed.
Lemma pair_typed obs A B : typed [] (pair_calls obs A B).
Proof. cbn. repeat split; try discriminate. Qed.
Lemma pair_chi2 obs A B s : pycalls gauss QUADRATIC (solver_new world_new) (pair_calls obs A B) = Some s -> let xi := res_2poses3d obs A B in snd (chi2 true (s_w s)) = 1 / 2 * (v3sqn (v6w xi) + v3sqn (v6v xi)).
Proof.
  intros E xi. destruct (pair_run obs A B) as (s0 & E0 & S0 & S1). rewrite E in E0. injection E0 as <-. destruct (C66_sessions gauss QUADRATIC _ (pair_typed obs A B)) as (s0 & Q & _ & _ & _ & X). rewrite E in Q. injection Q as <-. rewrite X. clear X.
  unfold pair_calls. rewrite !lsum_cons, lsum_nil. unfold call_chi2, call_factor. cbn [pycall_op Nat.ltb Nat.leb map fc_dim fc_res c_2poses3d]. rewrite S0, S1, id3_quad. fold xi. destruct xi as [[a b c] [d e f]]. unfold l6, l3, lvec, v3sqn, v3dot. cbn. ring.
Qed.
Definition shift_x (L : R) : M4 := se3_of_Rt m3id (mkV3 L 0 0).
Lemma shift_rigid L : rigid (shift_x L). Proof. unfold rigid, rotation, orthogonal, shift_x, se3_of_Rt, m3mul, m3tr, m3id, m3det. cbn. repeat split; try ring. f_equal; ring. Qed.
Definition turn_z (a : R) : M4 := se3_of_Rt (rot_z a) v3zero.
Lemma turn_z_rigid a : rigid (turn_z a). Proof. split; [apply rot_z_rotation | split; reflexivity]. Qed.
Lemma norm_z : v3norm (mkV3 0 0 1) = 1. Proof. unfold v3norm, v3sqn, v3dot. cbn. replace (0 * 0 + 0 * 0 + 1 * 1) with 1 by ring. apply sqrt_1. Qed.
Lemma norm_x2 : v3norm (mkV3 2 0 0) = 2. Proof. unfold v3norm, v3sqn, v3dot. cbn. replace (2 * 2 + 0 * 0 + 0 * 0) with (2 * 2) by ring. apply sqrt_square. lra. Qed.
Definition yaw1 : M4 := se3_of_vec (mkV6 (mkV3 0 0 1) v3zero).
Definition roll2 : M4 := se3_of_vec (mkV6 (mkV3 2 0 0) v3zero).
Lemma pair_res A : rigid A -> res_2poses3d m4id A m4id = se3_ln_vee A.
Proof. intros H. unfold res_2poses3d, tr_2poses3d, se3_mul. f_equal. assert (I : se3_inv m4id = m4id) by (rewrite <- of_Rt_id, inv_of_Rt; unfold se3_of_Rt; f_equal; lin). rewrite I. lin. Qed.
Lemma pair_res_moved g A : rigid g -> res_2poses3d m4id (m4mul g A) (m4mul g m4id) = se3_ln_vee (m4mul (m4mul g A) (se3_inv g)).
Proof. intros H. unfold res_2poses3d, tr_2poses3d, se3_mul. f_equal. assert (I : m4mul g m4id = g) by lin. rewrite I. f_equal. lin. Qed.
Theorem C82_origin_refuted : forall L, exists g A s s', rigid g /\ rigid A /\ mR g = m3id /\ mt g = mkV3 L 0 0 /\
  pycalls gauss QUADRATIC (solver_new world_new) (pair_calls m4id A m4id) = Some s /\
  pycalls gauss QUADRATIC (solver_new world_new) (pair_calls m4id (m4mul g A) (m4mul g m4id)) = Some s' /\
  snd (chi2 true (s_w s)) = 1 / 2 /\ snd (chi2 true (s_w s')) = 1 / 2 * (1 + L * L).
Proof.
  intros L. destruct (pair_run m4id yaw1 m4id) as (s & E & _). destruct (pair_run m4id (m4mul (shift_x L) yaw1) (m4mul (shift_x L) m4id)) as (s' & E' & _). pose proof PI_gt_3 as P.
  assert (HA : rigid yaw1) by (apply se3_exp_rigid; right; cbn [v6w]; rewrite norm_z; lra).
  exists (shift_x L), yaw1, s, s'. split; [apply shift_rigid|]. split; auto. split; [reflexivity|]. split; [reflexivity|]. split; auto. split; auto. rewrite (pair_chi2 _ _ _ _ E), (pair_chi2 _ _ _ _ E'). cbv zeta. rewrite (pair_res yaw1 HA), (pair_res_moved _ yaw1 (shift_rigid L)).
  rewrite (conj_vec (shift_x L) (mkV6 (mkV3 0 0 1) v3zero) yaw1 (shift_rigid L)); [|right; cbn [v6w]; rewrite norm_z; lra|reflexivity]. unfold lever, yaw1. cbn [v6w v6v].
  assert (W : m3app (mR (shift_x L)) (mkV3 0 0 1) = mkV3 0 0 1) by (unfold shift_x; cbn; unfold m3app, m3id; cbn; f_equal; ring). rewrite W. rewrite !se3_ln_exp by (rewrite ?norm_z; lra). cbn [v6w v6v]. unfold v3sqn, v3dot, shift_x, se3_of_Rt, v3cross, v3add, m3app, m3id, v3zero. cbn. split; field.
Qed.
Print Assumptions C82_origin_refuted.

(** *** Above a quarter turn the cost depends on the axes
    The logarithm loses rotations about the diagonals of the x-y plane (C03): an
    error of two radians costs 2 in one frame and nothing in another. *)
Lemma id3_turned6 g : rotation (mR g) -> mt g = v3zero -> turned6 g id3 id3.
Proof.
  intros HQ T0 w v w' v'. unfold v'. rewrite T0. rewrite !id3_quad.
  assert (N : forall u, v3sqn (m3app (mR g) u) = v3sqn u) by (intros u; unfold v3sqn; rewrite v3dot_app, <- m3app_mul, (rotation_linv _ HQ), m3app_id; reflexivity).
  pose proof (N w) as N1. pose proof (N v) as N2. fold w' in N1. assert (Z : v3add (m3app (mR g) v) (v3cross v3zero w') = m3app (mR g) v) by (generalize w' (m3app (mR g) v); intros; lin). rewrite Z. revert N1 N2. generalize w' (m3app (mR g) v). intros [a b c] [d e f]. destruct w, v. unfold v3sqn, v3dot, l3, lvec. cbn. lra.
Qed.
Theorem C82_quarter_turn_refuted : exists g A s s', rigid g /\ rigid A /\ mt g = v3zero /\ Forall2 (framed3 g) (pair_calls m4id A m4id) (pair_calls m4id (m4mul g A) (m4mul g m4id)) /\
  pycalls gauss QUADRATIC (solver_new world_new) (pair_calls m4id A m4id) = Some s /\
  pycalls gauss QUADRATIC (solver_new world_new) (pair_calls m4id (m4mul g A) (m4mul g m4id)) = Some s' /\
  snd (chi2 true (s_w s)) = 2 /\ snd (chi2 true (s_w s')) = 0.
Proof.
  set (g := turn_z (PI / 4)). assert (Hg : rigid g) by apply turn_z_rigid. destruct (pair_run m4id roll2 m4id) as (s & E & _). destruct (pair_run m4id (m4mul g roll2) (m4mul g m4id)) as (s' & E' & _). pose proof PI_gt_3 as P. pose proof PI_4 as P4.
  assert (HA : rigid roll2) by (apply se3_exp_rigid; right; cbn [v6w]; rewrite norm_x2; lra).
  exists g, roll2, s, s'. split; auto. split; auto. split; [reflexivity|]. split.
  { apply Forall2_cons; [split; [reflexivity | split; [exact HA | reflexivity]] |]. apply Forall2_cons; [split; [reflexivity | split; [exact id_rigid | reflexivity]] |]. apply Forall2_cons; [|apply Forall2_nil]. split; [exact id_rigid|]. repeat split. apply id3_turned6; [apply Hg | reflexivity]. }
  split; auto. split; auto. rewrite (pair_chi2 _ _ _ _ E), (pair_chi2 _ _ _ _ E'). cbv zeta. rewrite (pair_res roll2 HA), (pair_res_moved g roll2 Hg).
  rewrite (conj_vec g (mkV6 (mkV3 2 0 0) v3zero) roll2 Hg); [|right; cbn [v6w]; rewrite norm_x2; lra|reflexivity]. unfold lever. cbn [v6w v6v].
  split.
  - unfold roll2. rewrite se3_ln_exp; [cbn [v6w v6v]; unfold v3sqn, v3dot, v3zero; cbn; field | rewrite norm_x2; lra |]. rewrite norm_x2. intros [B _]. apply axis_diag_bad in B. destruct B as [_ [B|B]]; cbn in B; lra.
  - assert (W : m3app (mR g) (mkV3 2 0 0) = mkV3 (2 * cos (PI / 4)) (2 * sin (PI / 4)) 0) by (unfold g, turn_z, se3_of_Rt, rot_z, m3app; cbn; f_equal; ring).
    assert (N : v3norm (m3app (mR g) (mkV3 2 0 0)) = 2) by (rewrite norm_app; [apply norm_x2 | apply Hg]).
    rewrite se3_ln_exp_bad; [|apply axis_diag_bad; rewrite W; split; [reflexivity|left; cbn; rewrite sin_PI4, cos_PI4; reflexivity] | rewrite N; lra].
    cbn [v6w v6v]. assert (Z : v3add (m3app (mR g) v3zero) (v3cross (mt g) (m3app (mR g) (mkV3 2 0 0))) = v3zero) by (unfold g, turn_z, se3_of_Rt; cbn [mR mt]; lin). rewrite Z. generalize (Vmat (m3app (mR g) (mkV3 2 0 0))). intros V. unfold v3sqn, v3dot, v3zero, m3app. cbn. field.
Qed.
Print Assumptions C82_quarter_turn_refuted.

(** *** Every 3D session can be written down in the other frame *)
Definition in_3d (c : pycall) : Prop :=
  match c with
  | CNode _ (P3 T) => rigid T | CNode _ (L3 _) => True | CNode _ (PL n) => v3sqn (v4h n) = 1
  | CPose3d obs _ _ | C2Poses3d obs _ _ _ _ => rigid obs
  | CLandmark3d _ _ _ _ _ | CPlane4d _ _ _ _ | CPoint2Plane _ _ _ _ _ | CChi2 _ => True
  | _ => False
  end.
Definition other_val (g : M4) (v : nval) : nval :=
  match v with P3 T => P3 (m4mul g T) | L3 p => L3 (placed g p) | PL n => let h := m3app (mR g) (v4h n) in PL (mkV4 h (v4l n - v3dot h (mt g))) | _ => v end.
Definition other_call (g : M4) (c : pycall) : pycall :=
  match c with
  | CNode m v => CNode m (other_val g v)
  | CPose3d obs i W => CPose3d (m4mul g obs) i (carried6 g W)
  | C2Poses3d obs i j W u => C2Poses3d obs i j (carried6 g W) u
  | CPoint2Plane zx zy n i W => CPoint2Plane zx (placed g zy) (m3app (mR g) n) i W
  | _ => c
  end.
Lemma other_framed g c : rigid g -> in_3d c -> framed3 g c (other_call g c).
Proof.
  intros Hg H. destruct c; try (destruct v); cbn in H; try contradiction; cbn [other_call other_val framed3 moved3 v4h v4l]; repeat match goal with |- _ /\ _ => split end; auto; apply carried_turned; apply Hg.
Qed.
Theorem C82_other_frame : forall g cs, rigid g -> Forall in_3d cs -> Forall call_info cs -> exists cs', Forall2 (framed3 g) cs cs' /\ Forall call_info cs'.
Proof.
  intros g cs Hg H P. exists (map (other_call g) cs). split.
  - clear P. induction H; constructor; auto. apply other_framed; auto.
  - rewrite Forall_map. apply Forall_forall. intros c I. rewrite Forall_forall in P, H. specialize (P c I). specialize (H c I). unfold call_info, call_factor in *. destruct c; cbn [other_call pycall_op] in *; auto; [apply carried_proper; exact P|]. destruct (_ <? _)%nat; apply carried_proper; exact P.
Qed.
Print Assumptions C82_other_frame.

(** *** Maps do not depend on the coordinate frame *)
Theorem C82_map : forall lin g cs cs' k lambda tol, exact lin -> rigid g -> typed [] cs -> mapping cs -> Forall call_info cs -> Forall call_info cs' ->
  (forall i, (i < length (nodes_of cs))%nat -> held cs i) -> Forall2 (framed3 g) cs cs' ->
  exists s s' t t', pycalls lin QUADRATIC (solver_new world_new) cs = Some s /\ pycalls lin QUADRATIC (solver_new world_new) cs' = Some s' /\
    solve lin GN k lambda tol s = Some t /\ solve lin GN k lambda tol s' = Some t' /\
    Forall2 (moved3 g) (get_estimated_state (s_w s)) (get_estimated_state (s_w s')) /\ Forall2 (moved3 g) (get_estimated_state (s_w t)) (get_estimated_state (s_w t')).
Proof. exact frame_map. Qed.
Print Assumptions C82_map.

(** *** Examples *)
(** two poses, a landmark and a plane with all factors; a quarter turn about z and a shift by 1 *)
Definition scene (A B : M4) : list pycall :=
  [CNode STANDARD (P3 A); CNode STANDARD (P3 B); CNode STANDARD (L3 (mkV3 1 2 3)); CNode STANDARD (PL (mkV4 (mkV3 0 0 1) 2));
   CPose3d m4id 0 id3; C2Poses3d m4id 0 1 id3 false; CLandmark3d (mkV3 1 0 1) 0 2 id3 false; CPlane4d (mkV4 (mkV3 0 1 0) 1) 1 3 id3; CPoint2Plane (mkV3 1 1 1) (mkV3 0 0 1) (mkV3 0 0 1) 1 id3; CChi2 true].
Lemma yaw1_rigid : rigid yaw1. Proof. apply se3_exp_rigid. right. cbn [v6w]. rewrite norm_z. lra. Qed.
Lemma yaw1_trace : m3trace (mR yaw1) = 1 + 2 * cos 1.
Proof.
  assert (E : mR yaw1 = so3_of_vec (mkV3 0 0 1)). { unfold yaw1. rewrite se3_of_vec_block. reflexivity. } rewrite E, so3_of_vec_rodx by (rewrite norm_z; lra).
  pose proof (rodx_tr (mkV3 0 0 1)) as Q. rewrite norm_z in Q. specialize (Q ltac:(lra)). lra.
Qed.
Lemma yaw1_small g : small_turn g (mR yaw1).
Proof.
  unfold small_turn. rewrite yaw1_trace. pose proof PI_gt_3. assert (0 < cos 1) by (apply cos_gt_0; lra). split; [lra|]. right. right. assert (cos 1 < cos (5 / 1000)) by (apply cos_decreasing_1; lra). lra.
Qed.
Lemma scene_in : Forall in_3d (scene yaw1 m4id).
Proof. unfold scene. repeat (apply Forall_cons; [cbn; first [exact yaw1_rigid | exact id_rigid | exact I | unfold v3sqn, v3dot; cbn; ring] |]). constructor. Qed.
Lemma scene_info A B : Forall call_info (scene A B).
Proof. unfold scene. repeat (apply Forall_cons; [cbn; first [exact I | apply id3_proper] |]). constructor. Qed.
Lemma scene_typed A B : typed [] (scene A B).
Proof. cbn. repeat split; try discriminate. Qed.
Lemma scene_run A B : exists s, pycalls gauss QUADRATIC (solver_new world_new) (scene A B) = Some s /\ state_of (s_w s) 0 = P3 A /\ state_of (s_w s) 1 = P3 B.
Proof. eexists. split; [cbv -[m4id id3 double IZR gauss res_landmark3d jac_landmark3d res_2poses3d jac_2poses3d init_2poses3d res_pose3d jac_pose3d res_plane4d jac_plane4d res_point2plane jac_point2plane plane_normalize lvec lmat beside l3 l6 R0 R1]; reflexivity|]. split; reflexivity. Qed.
Example C82_ex_costs : exists cs' s, rigid quarter /\ typed [] (scene yaw1 m4id) /\ Forall2 (framed3 quarter) (scene yaw1 m4id) cs' /\ Forall call_info cs' /\
  pycalls gauss QUADRATIC (solver_new world_new) (scene yaw1 m4id) = Some s /\ Forall (small_error quarter (state_of (s_w s))) (scene yaw1 m4id).
Proof.
  destruct (C82_other_frame quarter _ quarter_rigid scene_in (scene_info _ _)) as (cs' & F & P). destruct (scene_run yaw1 m4id) as (s & E & S0 & S1). exists cs', s. split; [exact quarter_rigid|]. split; [apply scene_typed|]. do 3 (split; [assumption|]).
  unfold scene. repeat (apply Forall_cons; [cbn [small_error Nat.min Nat.max]; rewrite ?S0, ?S1; try exact I|]); [| |constructor].
  - replace (m3mul (mR yaw1) (m3tr (mR m4id))) with (mR yaw1) by (generalize (mR yaw1); lin). apply yaw1_small.
  - replace (m3mul (m3mul (mR yaw1) (mR m4id)) (m3tr (mR m4id))) with (mR yaw1) by (generalize (mR yaw1); lin). apply yaw1_small.
Qed.
(** the maps of C81 *)
Example C82_ex_map : forall p q, exists cs', let cs := map_calls quarter p q in exact gauss /\ rigid quarter /\ typed [] cs /\ mapping cs /\ Forall call_info cs /\ Forall call_info cs' /\
  (forall i, (i < length (nodes_of cs))%nat -> held cs i) /\ Forall2 (framed3 quarter) cs cs'.
Proof.
  intros p q. destruct (map_calls_ok quarter p q quarter_rigid) as (T & M & _ & P & Hd).
  assert (D : Forall in_3d (map_calls quarter p q)). { unfold map_calls. repeat (apply Forall_cons; [cbn; first [exact quarter_rigid | exact id_rigid | exact I] |]). constructor. }
  destruct (C82_other_frame quarter _ quarter_rigid D P) as (cs' & F & P'). exists cs'. intros cs. split; [exact gauss_exact|]. split; [exact quarter_rigid|]. do 5 (split; [assumption|]). exact F.
Qed.
