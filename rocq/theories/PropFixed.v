(** C85: what solving leaves alone. *)
Require Import Reals List Arith Lia Lra Bool.
From Verif Require Import Lin LinFacts SpecGeom SO3 SE3 SO3Exp SO3Misc SE3Alg SE3Ln Angle AngleProofs Nodes Robust Graph Sums Solve SpecSolve SolveSums SolveProofs Session SessionProofs.
From Verif Require Import Factors SpecFactors Factors3D Factors3DLn SpecFrame Frame3Factors Gauss FrameSolve SpecSolvable SolvableSession FactorsSession PropFrame PropSolvable SpecMapping MappingSession PropMapping Reorder ReorderSolve SpecFixed Fixed.
Import ListNotations.
Local Open Scope R_scope.

(** *** A graph whose measurements hold each other in balance is left as it is by
    both methods, any number of times *)
Theorem C85_balanced : forall lin rob cs m k lambda tol s, exact lin -> rob <> RANSAC -> typed [] cs -> Forall call_info cs ->
  (m = GN -> Forall solid_call cs /\ forall i, (i < length (nodes_of cs))%nat -> held cs i) ->
  pycalls lin rob (solver_new world_new) cs = Some s -> balanced rob cs (state_of (s_w s)) ->
  (forall i m v, nth_error (nodes_of cs) i = Some (m, v) -> m <> ANCHOR -> settled (state_of (s_w s) i)) ->
  exists t, solve lin m k lambda tol s = Some t /\ (forall i, state_of (s_w t) i = state_of (s_w s) i) /\ chi2_of (s_w t) = chi2_of (s_w s).
Proof.
  intros lin rob cs m k la tol s X NR T P Hm E B Se. destruct (session_inv lin rob cs T) as (s0 & E0 & V & Fi). rewrite E in E0. injection E0 as <-.
  destruct (solve_total lin m k la tol s (gd_wf _ (iv_good _ _ _ V))) as [t Et]. exists t. split; auto.
  assert (Q : state_of (s_w t) = state_of (s_w s)).
  { destruct m; [|apply (rest_lm lin rob cs X P NR k la tol); auto; split; auto]. destruct (Hm eq_refl) as [So Hd]. apply (rest_gn lin rob cs X P NR k la tol); auto; [split; auto|]. apply (held_one rob cs); auto. }
  split; [intros i; rewrite Q; reflexivity|]. destruct (solve_frame lin m k la tol s t Et) as (Sk & _ & Kk). pose proof (inv_skel rob cs _ _ V Sk Kk) as Vt.
  rewrite (tracks_chi2 _ cs _ (iv_tracks _ _ _ V)), (tracks_chi2 _ cs _ (iv_tracks _ _ _ Vt)), Q. reflexivity.
Qed.
Print Assumptions C85_balanced.

(** *** In particular one that meets all its measurements, whatever the robust function *)
Theorem C85_consistent : forall lin rob cs m k lambda tol s, exact lin -> rob <> RANSAC -> typed [] cs -> Forall call_info cs ->
  (m = GN -> Forall solid_call cs /\ forall i, (i < length (nodes_of cs))%nat -> held cs i) ->
  pycalls lin rob (solver_new world_new) cs = Some s -> consistent cs (state_of (s_w s)) ->
  (forall i m v, nth_error (nodes_of cs) i = Some (m, v) -> m <> ANCHOR -> settled (state_of (s_w s) i)) ->
  exists t, solve lin m k lambda tol s = Some t /\ (forall i, state_of (s_w t) i = state_of (s_w s) i) /\ chi2_of (s_w s) = 0 /\ chi2_of (s_w t) = 0.
Proof.
  intros lin rob cs m k la tol s X NR T P Hm E C Se. destruct (C85_balanced lin rob cs m k la tol s X NR T P Hm E (consistent_balanced rob cs _ C) Se) as (t & Et & St & Ch). exists t. split; auto. split; auto. rewrite Ch. enough (chi2_of (s_w s) = 0) by auto.
  destruct (session_inv lin rob cs T) as (s0 & E0 & V & _). rewrite E in E0. injection E0 as <-. rewrite (tracks_chi2 _ cs _ (iv_tracks _ _ _ V)). apply lsum_zero. intros c I. unfold call_chi2. specialize (C c I). unfold residual_zero, zero_residual in C.
  destruct (call_factor c) as [[[cl ids] W]|]; auto. specialize (C ltac:(discriminate)). unfold quad. rewrite sumn_zero; [ring|]. intros i Hi. apply sumn_zero. intros j Hj. rewrite (C i Hi). ring.
Qed.
Print Assumptions C85_consistent.

(** *** Only balanced graphs are left as they are: when landmarks are all there is
    to estimate, a Gauss-Newton step that moves nothing tells that they are balanced *)
Theorem C85_fixed : forall lin rob cs k lambda tol s t, exact lin -> rob <> RANSAC -> typed [] cs -> Forall call_info cs -> Forall solid_call cs ->
  (forall i, (i < length (nodes_of cs))%nat -> held cs i) -> (forall i m v, nth_error (nodes_of cs) i = Some (m, v) -> m <> ANCHOR -> kind_of v = KL2 \/ kind_of v = KL3) ->
  pycalls lin rob (solver_new world_new) cs = Some s -> solve lin GN k lambda tol s = Some t ->
  (balanced rob cs (state_of (s_w s)) <-> forall i m v, nth_error (nodes_of cs) i = Some (m, v) -> m <> ANCHOR -> state_of (s_w t) i = state_of (s_w s) i).
Proof.
  intros lin rob cs k la tol s t X NR T P So Hd Kd E Et. destruct (session_inv lin rob cs T) as (s0 & E0 & V & Fi). rewrite E in E0. injection E0 as <-. assert (On : one_step 0 (s_w s)) by (apply (held_one rob cs); auto). split.
  - intros B. destruct (C85_balanced lin rob cs GN k la tol s X NR T P ltac:(auto) E B) as (t' & Et' & St & _); [|rewrite Et in Et'; injection Et' as <-; intros; apply St].
    intros i m v Ei NA. destruct (mode_of rob cs _ i m v V Ei) as (_ & _ & _ & _ & _ & K). specialize (Kd i m v Ei NA). rewrite <- K in Kd. destruct (state_of (s_w s) i); cbn in Kd; try exact I; destruct Kd; discriminate.
  - intros H. apply (fixed_balanced lin rob cs k la tol s t); auto.
Qed.
Print Assumptions C85_fixed.

(** *** Without settled states: a pose that meets its only measurement, turned by a
    half about (1,1,0), loses its rotation in one step; chi2 goes from 0 to 19 *)
Definition lying : M4 := se3_of_Rt half_turn_xy (mkV3 1 2 3).
Definition lying_calls : list pycall := [CNode STANDARD (P3 lying); CPose3d lying 0 id3].
Lemma lying_rigid : rigid lying. Proof. apply rigid_of_Rt, half_turn_xy_rotation. Qed.
Lemma lying_ok : typed [] lying_calls /\ Forall call_info lying_calls /\ Forall solid_call lying_calls /\ (forall i, (i < length (nodes_of lying_calls))%nat -> held lying_calls i).
Proof.
  split. { cbn. split; [discriminate|]. auto. } split. { apply Forall_cons; [exact I|]. apply Forall_cons; [exact (id3_proper 6)|]. apply Forall_nil. }
  split. { apply Forall_cons; [exact (rigid_solid _ lying_rigid)|]. apply Forall_cons; [exact I|]. apply Forall_nil. }
  intros [|i] Hi; [|cbn in Hi; lia]. eapply held_pose3d; [right; left; reflexivity|apply (id_positive 6)].
Qed.
Lemma lying_update : val_update (P3 lying) (fun _ => 0) = P3 (se3_of_Rt m3id (mkV3 1 2 3)).
Proof.
  cbn [val_update]. f_equal. unfold se3_update_lhs. change (dx6 (fun _ => 0)) with (mkV6 v3zero v3zero). rewrite of_vec_zero. change (se3_of_Rt m3id v3zero) with m4id. replace (m4mul m4id lying) with lying by (generalize lying; intros []; lin). apply regenerate_half_turn.
Qed.
Lemma lying_chi2 st : st 0%nat = P3 (se3_of_Rt m3id (mkV3 1 2 3)) -> lsum lying_calls (call_chi2 st) = 19.
Proof.
  intros S0. unfold lying_calls. repeat rewrite lsum_cons. rewrite lsum_nil. unfold call_chi2, call_factor. cbn [pycall_op map]. rewrite S0. cbn [fc_dim fc_res c_pose3d].
  assert (Q : res_pose3d lying (se3_of_Rt m3id (mkV3 1 2 3)) = mkV6 v3zero (mkV3 (-1) 1 6)).
  { unfold res_pose3d, se3_mul, lying. rewrite inv_of_Rt. replace (m3tr half_turn_xy) with half_turn_xy by (unfold half_turn_xy; lin). rewrite (se3_ln_vee_block _ v3zero PI).
    - rewrite rod_zero, m3app_id. f_equal. unfold half_turn_xy, se3_of_Rt. lin_unfold. f_equal; ring.
    - replace (mR _) with half_turn_xy; [rewrite ln_half_turn_xy; f_equal; unfold hat3; lin|]. unfold half_turn_xy, se3_of_Rt. lin_unfold. f_equal; ring. }
  rewrite Q. unfold quad, id3, l6, lvec, v3zero. cbn. field.
Qed.
Theorem C85_unsettled_refuted : exists cs, typed [] cs /\ Forall call_info cs /\ Forall solid_call cs /\ (forall i, (i < length (nodes_of cs))%nat -> held cs i) /\
  forall lin rob, exact lin -> rob <> RANSAC -> exists s t, pycalls lin rob (solver_new world_new) cs = Some s /\ consistent cs (state_of (s_w s)) /\ (exists T, state_of (s_w s) 0 = P3 T /\ rigid T) /\ chi2_of (s_w s) = 0 /\
  solve lin GN 1 0 0 s = Some t /\ state_of (s_w t) 0 <> state_of (s_w s) 0 /\ chi2_of (s_w t) = 19.
Proof.
  exists lying_calls. destruct lying_ok as (T & P & So & Hd). do 4 (split; auto). intros lin rob X NR. destruct (session_inv lin rob lying_calls T) as (s & E & V & Fi).
  assert (S0 : state_of (s_w s) 0 = P3 lying) by (clear - E; unfold lying_calls in E; generalize dependent lying; intros A E; cbv -[id3 IZR lvec res_pose3d jac_pose3d l6 lmat] in E; injection E as <-; reflexivity).
  assert (C : consistent lying_calls (state_of (s_w s))).
  { intros c [<-|[<-|[]]] N; [cbn in N; congruence|]. unfold residual_zero, call_factor. cbn [pycall_op map]. rewrite S0. apply pose3d_zero_eq, lying_rigid. }
  destruct (solve_total lin GN 1 0 0 s (gd_wf _ (iv_good _ _ _ V))) as [t Et]. exists s, t. split; auto. split; auto. split; [exists lying; split; [exact S0|exact lying_rigid]|].
  assert (St : state_of (s_w t) 0 = P3 (se3_of_Rt m3id (mkV3 1 2 3))).
  { rewrite (quiet_gn lin rob lying_calls X P NR 1 0 0 s t 0 STANDARD (P3 lying)); auto; [rewrite S0; exact lying_update|apply consistent_balanced, C|apply (held_one rob lying_calls); auto|discriminate]. }
  destruct (solve_frame lin GN 1 0 0 s t Et) as (Sk & _ & Kk). pose proof (inv_skel rob _ _ _ V Sk Kk) as Vt. rewrite (tracks_chi2 _ _ _ (iv_tracks _ _ _ V)), (tracks_chi2 _ _ _ (iv_tracks _ _ _ Vt)).
  split. { apply lsum_zero. intros c I. specialize (C c I). unfold call_chi2. unfold residual_zero, zero_residual in C. destruct (call_factor c) as [[[cl ids] W]|]; auto. specialize (C ltac:(discriminate)). unfold quad. rewrite sumn_zero; [ring|]. intros i Hi. apply sumn_zero. intros j Hj. rewrite (C i Hi). ring. }
  split; auto. split; [|apply lying_chi2, St]. rewrite St, S0. intros Q. injection Q. intros. apply half_turn_xy_not_id. unfold half_turn_xy, m3id in *. congruence.
Qed.
Print Assumptions C85_unsettled_refuted.
(** *** Examples: a pose and a landmark where their measurements put them *)
Definition met_calls : list pycall :=
  [CNode ANCHOR (P2 (mkV3 0 0 0)); CNode STANDARD (P2 (mkV3 2 0 1)); C2Poses2d (mkV3 2 0 1) 0 1 id3 false; CNode ANCHOR (P3 m4id); CNode STANDARD (L3 (mkV3 1 2 3)); CLandmark3d (mkV3 1 2 3) 2 3 id3 false].
Lemma met_ok : typed [] met_calls /\ Forall call_info met_calls /\ Forall solid_call met_calls /\ (forall i, (i < length (nodes_of met_calls))%nat -> held met_calls i).
Proof.
  split. { cbn. repeat split; auto; discriminate. } split. { repeat (apply Forall_cons; [first [exact I|exact (id3_proper 3)]|]). apply Forall_nil. }
  split. { repeat (apply Forall_cons; [first [exact I|exact solid_id]|]). apply Forall_nil. }
  assert (H0 : held met_calls 0) by (eapply held_anchor; reflexivity). assert (H2 : held met_calls 2) by (eapply held_anchor; reflexivity).
  intros [|[|[|[|i]]]] Hi; auto; [| |cbn in Hi; lia]; [eapply held_2poses2d; [unfold met_calls; cbn; eauto 10|apply (id_positive 3)|exact H0]|eapply held_landmark3d; [unfold met_calls; cbn; eauto 10|apply (id_positive 3)|exact H2]].
Qed.
Lemma met_run lin rob : exists s, pycalls lin rob (solver_new world_new) met_calls = Some s /\ consistent met_calls (state_of (s_w s)) /\
  (forall i m v, nth_error (nodes_of met_calls) i = Some (m, v) -> m <> ANCHOR -> settled (state_of (s_w s) i)) /\ state_of (s_w s) 1 = P2 (mkV3 2 0 1).
Proof.
  assert (R : exists s, pycalls lin rob (solver_new world_new) met_calls = Some s /\ forall i, (i < 4)%nat -> state_of (s_w s) i = nth i [P2 (mkV3 0 0 0); P2 (mkV3 2 0 1); P3 m4id; L3 (mkV3 1 2 3)] (P2 v3zero)).
  { unfold met_calls. generalize m4id. intros A. eexists. split; [cbv -[id3 IZR res_2poses2d jac_2poses2d res_landmark3d jac_landmark3d lvec lmat beside l3]; reflexivity|]. intros [|[|[|[|i]]]] Hi; try reflexivity; lia. }
  destruct R as (s & E & S). exists s. split; auto. assert (PI2 : 2 < PI) by (pose proof PI2_1; lra). split; [|split; [|apply (S 1%nat); lia]].
  - intros c I N. assert (S0 := S 0%nat ltac:(lia)). assert (S1 := S 1%nat ltac:(lia)). assert (S2 := S 2%nat ltac:(lia)). assert (S3 := S 3%nat ltac:(lia)). cbn [nth] in *.
    destruct I as [<-|[<-|[<-|[<-|[<-|[<-|[]]]]]]]; try (cbn in N; congruence); unfold residual_zero, call_factor; cbn [pycall_op map Nat.ltb Nat.leb]; rewrite ?S0, ?S1, ?S2, ?S3; unfold zero_residual; cbn -[res_2poses2d res_landmark3d m4id].
    + replace (res_2poses2d (mkV3 2 0 1) (mkV3 0 0 0) (mkV3 2 0 1)) with (mkV3 0 0 0); [intros [|[|[|i]]] Hi; try reflexivity; lia|]. unfold res_2poses2d, wrap3, v3sub. cbn. rewrite cos_0, sin_0. rewrite wrap_angle_id by lra. f_equal; ring.
    + replace (res_landmark3d (mkV3 1 2 3) m4id (mkV3 1 2 3)) with (mkV3 0 0 0); [intros [|[|[|i]]] Hi; try reflexivity; lia|]. unfold res_landmark3d, m4id, se3_transform, se3_inv. lin_unfold. cbn. f_equal; ring.
  - intros [|[|[|[|i]]]] m v Ei NA; cbn in Ei; try (injection Ei as <- <-; congruence); [rewrite (S 1%nat) by lia; cbn; lra|rewrite (S 3%nat) by lia; exact I|destruct i; discriminate].
Qed.
Example C85_ex_consistent : forall lin rob m k lambda tol, exact lin -> rob <> RANSAC -> exists s t, pycalls lin rob (solver_new world_new) met_calls = Some s /\ solve lin m k lambda tol s = Some t /\ state_of (s_w t) 1 = P2 (mkV3 2 0 1) /\ chi2_of (s_w t) = 0.
Proof.
  intros lin rob m k la tol X NR. destruct met_ok as (T & P & So & Hd). destruct (met_run lin rob) as (s & E & C & Se & S1). destruct (C85_consistent lin rob met_calls m k la tol s X NR T P ltac:(auto) E C Se) as (t & Et & St & _ & Ch).
  exists s, t. do 2 (split; auto). rewrite St. auto.
Qed.
(** a pose between two priors that pull it either way *)
Definition torn_calls : list pycall := [CNode STANDARD (P2 (mkV3 0 0 0)); CPose2d (mkV3 1 0 0) 0 id3; CPose2d (mkV3 (-1) 0 0) 0 id3].
Lemma torn_ok : typed [] torn_calls /\ Forall call_info torn_calls /\ Forall solid_call torn_calls /\ (forall i, (i < length (nodes_of torn_calls))%nat -> held torn_calls i).
Proof.
  split. { cbn. repeat split; auto; discriminate. } split. { repeat (apply Forall_cons; [first [exact I|exact (id3_proper 3)]|]). apply Forall_nil. }
  split. { repeat (apply Forall_cons; [exact I|]). apply Forall_nil. } intros [|i] Hi; [|cbn in Hi; lia]. eapply held_pose2d; [right; left; reflexivity|apply (id_positive 3)].
Qed.
Lemma torn_chi2 st x : st 0%nat = P2 (mkV3 0 0 0) -> call_chi2 st (CPose2d (mkV3 x 0 0) 0 id3) = x * x / 2.
Proof.
  intros S0. assert (Z : wrap_angle (0 - 0) = 0). { rewrite Rminus_0_r. apply wrap_angle_id. pose proof PI_RGT_0. lra. }
  unfold call_chi2, call_factor. cbn [pycall_op map]. rewrite S0. cbn [fc_res fc_dim c_pose2d]. unfold res_pose2d, wrap3, v3sub, l3, lvec. cbn [vx vy vz]. rewrite Z. unfold quad, id3; cbn; field.
Qed.
Lemma torn_balanced rob st : st 0%nat = P2 (mkV3 0 0 0) -> balanced rob torn_calls st.
Proof.
  intros S0 d _. assert (Z : wrap_angle (0 - 0) = 0). { rewrite Rminus_0_r. apply wrap_angle_id. pose proof PI_RGT_0. lra. }
  unfold torn_calls. repeat rewrite lsum_cons. rewrite lsum_nil. unfold pull. rewrite !torn_chi2 by auto. replace (-1 * -1 / 2) with (1 * 1 / 2) by field. set (q := robust_eval rob 0 (sqrt (1 * 1 / 2))). unfold call_factor. cbn [pycall_op map]. rewrite S0. cbn [fc_res fc_dim fc_jac c_pose2d].
  unfold res_pose2d, wrap3, v3sub, l3, lvec. cbn [vx vy vz]. rewrite Z. unfold quad, id3. cbn. ring.
Qed.
Example C85_ex_balanced : forall lin rob m k lambda tol, exact lin -> rob <> RANSAC -> exists s t, pycalls lin rob (solver_new world_new) torn_calls = Some s /\ solve lin m k lambda tol s = Some t /\ state_of (s_w t) 0 = P2 (mkV3 0 0 0) /\ chi2_of (s_w t) = 1.
Proof.
  intros lin rob m k la tol X NR. destruct torn_ok as (T & P & So & Hd). destruct (session_inv lin rob torn_calls T) as (s & E & V & _).
  assert (S0 : state_of (s_w s) 0 = P2 (mkV3 0 0 0)) by (clear - E; unfold torn_calls in E; cbv -[id3 IZR lvec res_pose2d jac_pose2d l3 lmat] in E; injection E as <-; reflexivity).
  destruct (C85_balanced lin rob torn_calls m k la tol s X NR T P ltac:(auto) E (torn_balanced rob _ S0)) as (t & Et & St & Ch).
  { intros [|i] m0 v Ei NA; cbn in Ei; [|destruct i; discriminate]. rewrite S0. cbn. pose proof PI_RGT_0. lra. }
  exists s, t. do 2 (split; auto). split; [rewrite St; auto|]. rewrite Ch, (tracks_chi2 _ _ _ (iv_tracks _ _ _ V)). unfold torn_calls. repeat rewrite lsum_cons. rewrite lsum_nil, !torn_chi2 by auto. unfold call_chi2, call_factor. cbn [pycall_op]. field.
Qed.
Example C85_ex_fixed : forall lin p q, exact lin -> exists s t, let cs := map_calls quarter p q in pycalls lin HUBER (solver_new world_new) cs = Some s /\ solve lin GN 1 0 0 s = Some t /\
  (balanced HUBER cs (state_of (s_w s)) <-> state_of (s_w t) 1 = state_of (s_w s) 1 /\ state_of (s_w t) 3 = state_of (s_w s) 3).
Proof.
  intros lin p q X. destruct (map_calls_ok quarter p q quarter_rigid) as (T & M & So & P & Hd). destruct (session_inv lin HUBER _ T) as (s & E & V & _). destruct (solve_total lin GN 1 0 0 s (gd_wf _ (iv_good _ _ _ V))) as [t Et]. exists s, t. cbv zeta. do 2 (split; auto).
  rewrite (C85_fixed lin HUBER _ 1 0 0 s t X ltac:(discriminate) T P So Hd) by (auto; intros i m v Ei NA; right; apply (M i m v Ei NA)). split.
  - intros H. split; [apply (H 1%nat STANDARD (L3 p))|apply (H 3%nat STANDARD (L3 q))]; try reflexivity; discriminate.
  - intros [H1 H3] [|[|[|[|i]]]] m v Ei NA; auto; cbn in Ei; [congruence|congruence|destruct i; discriminate].
Qed.
