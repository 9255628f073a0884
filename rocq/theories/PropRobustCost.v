(** C89: what solving with a robust function minimises. *)
Require Import Reals List Arith Lia Lra Bool.
From Verif Require Import Lin LinFacts SpecGeom SO3 SE3 SO3Exp SO3Misc SE3Alg SE3Ln Angle AngleProofs Nodes Robust Graph Sums Solve SpecSolve SolveIndex SolveFrame SolveSums SolveBuild SolveProofs Session SessionProofs FrameFactors.
From Verif Require Import Factors SpecFactors FactorsDer Factors3D Factors3DLn FactorsMore SpecFrame Gauss FrameSolve SpecSolvable SolvableSession FactorsSession PropFrame PropSolvable SpecMapping MappingSession PropMapping LMMapping SpecReorder Reorder ReorderSolve PropReorder SpecFixed Fixed PropFixed SpecTree Tree SpecParts Parts PropParts Infos PropInfos SpecRobustCost RobustCost PropFactors PropSolve.
Import ListNotations.
Local Open Scope R_scope.

(** *** Where the Jacobians are right, states at which the robust cost is stationary
    are left as they are by both methods *)
Theorem C89_stationary : forall lin rob cs m k lambda tol s, exact lin -> rob <> RANSAC -> typed [] cs -> Forall call_info cs ->
  (m = GN -> Forall solid_call cs /\ forall i, (i < length (nodes_of cs))%nat -> held cs i) ->
  pycalls lin rob (solver_new world_new) cs = Some s -> jacobians_right cs (state_of (s_w s)) -> rigid_states (state_of (s_w s)) ->
  (forall i m v, nth_error (nodes_of cs) i = Some (m, v) -> m <> ANCHOR -> settled (state_of (s_w s) i)) ->
  stationary rob cs (state_of (s_w s)) ->
  exists t, solve lin m k lambda tol s = Some t /\ forall i, state_of (s_w t) i = state_of (s_w s) i.
Proof.
  intros lin rob cs m k la tol s X NR T P Hm E J Rg Se St. apply (balanced_stationary rob cs _ NR P J Rg) in St.
  destruct (C85_balanced lin rob cs m k la tol s X NR T P Hm E St Se) as (t & Et & S & _). exists t. auto.
Qed.
Print Assumptions C89_stationary.

(** *** From any other state a Gauss-Newton step sets out downhill: whatever curves the
    nodes follow, starting in the direction of the step, the robust cost drops *)
Theorem C89_downhill : forall lin rob cs k lambda tol s t, exact lin -> rob <> RANSAC -> typed [] cs -> Forall call_info cs -> Forall solid_call cs ->
  (forall i, (i < length (nodes_of cs))%nat -> held cs i) ->
  pycalls lin rob (solver_new world_new) cs = Some s -> jacobians_right cs (state_of (s_w s)) -> rigid_states (state_of (s_w s)) -> solve lin GN k lambda tol s = Some t ->
  exists d, (forall i v k, nth_error (nodes_of cs) i = Some (ANCHOR, v) -> d i k = 0) /\
    (forall i m v, nth_error (nodes_of cs) i = Some (m, v) -> state_of (s_w t) i = match m with ANCHOR => state_of (s_w s) i | _ => val_update (state_of (s_w s) i) (d i) end) /\
    (stationary rob cs (state_of (s_w s)) \/ forall g, motion cs (state_of (s_w s)) d g ->
       exists e, 0 < e /\ forall a, 0 < a < e -> robust_cost rob cs (fun i => g i a) < robust_cost rob cs (state_of (s_w s))).
Proof.
  intros lin rob cs k la tol s t X NR T P So Hd E J Rg Et. destruct (session_inv lin rob cs T) as (s0 & E0 & V & Fi). rewrite E in E0. injection E0 as <-.
  destruct (gn_downhill lin rob cs k la tol s t X NR P V) as (d & q & A & U & Q & Pq & Z); auto. { apply (held_one rob cs); auto. }
  exists d. split; auto. split; auto. destruct (Rle_lt_or_eq_dec _ _ Pq) as [Hq|Hq]; [right|left; apply (balanced_stationary rob cs); auto].
  intros g [Tg _]. pose proof (cost_rate rob cs _ d g NR P J Tg) as D. rewrite Q in D. destruct (D q Hq) as [e He]. exists e. split; [apply cond_pos|]. intros a Ha.
  specialize (He a (Rgt_not_eq _ _ (proj1 Ha)) ltac:(rewrite Rabs_pos_eq; lra)). rewrite Rplus_0_l in He. cbv beta in He. replace (fun i => g i 0) with (state_of (s_w s)) in He by (apply FunctionalExtensionality.functional_extensionality; intros i; symmetry; apply (Tg i)).
  apply Rabs_def2 in He. set (u := robust_cost rob cs (fun i => g i a)) in *. set (v := robust_cost rob cs (state_of (s_w s))) in *. destruct He as [He _]. assert (H : (u - v) / a < 0) by lra. apply (Rmult_lt_compat_r a) in H; [|lra]. unfold Rdiv in H. rewrite Rmult_assoc, Rinv_l in H by lra. lra.
Qed.
Print Assumptions C89_downhill.

(** *** When landmarks are all there is to estimate, Gauss-Newton moves them exactly as
    long as the robust cost is not stationary *)
Theorem C89_landmarks : forall lin rob cs k lambda tol s t, exact lin -> rob <> RANSAC -> typed [] cs -> Forall call_info cs -> Forall solid_call cs ->
  (forall i, (i < length (nodes_of cs))%nat -> held cs i) -> (forall i m v, nth_error (nodes_of cs) i = Some (m, v) -> m <> ANCHOR -> kind_of v = KL2 \/ kind_of v = KL3) ->
  pycalls lin rob (solver_new world_new) cs = Some s -> jacobians_right cs (state_of (s_w s)) -> rigid_states (state_of (s_w s)) -> solve lin GN k lambda tol s = Some t ->
  (stationary rob cs (state_of (s_w s)) <-> forall i m v, nth_error (nodes_of cs) i = Some (m, v) -> m <> ANCHOR -> state_of (s_w t) i = state_of (s_w s) i).
Proof.
  intros lin rob cs k la tol s t X NR T P So Hd Kd E J Rg Et. rewrite <- (balanced_stationary rob cs _ NR P J Rg). apply (C85_fixed lin rob cs k la tol s t); auto.
Qed.
Print Assumptions C89_landmarks.

(** *** Levenberg-Marquardt compares plain chi2: with any robust function, from a
    least-squares optimum it only gets to least-squares optima *)
Theorem C89_least_squares : forall lin rob cs k lambda tol s t, typed [] cs -> pycalls lin rob (solver_new world_new) cs = Some s -> solve lin LM k lambda tol s = Some t ->
  least_squares cs (state_of (s_w s)) -> least_squares cs (state_of (s_w t)) /\ chi2_of (s_w t) = chi2_of (s_w s).
Proof.
  intros lin rob cs k la tol s t T E Et L. destruct (session_inv lin rob cs T) as (s0 & E0 & V & _). rewrite E in E0. injection E0 as <-. destruct (solve_frame _ _ _ _ _ _ _ Et) as (Sk & Fr & Kk). pose proof (inv_skel rob cs _ _ V Sk Kk) as Vt.
  assert (Le : chi2_of (s_w t) <= chi2_of (s_w s)) by (apply (C36_lm_never_worse lin k la tol s t); auto; [intros l Il; apply (wf_factors _ (gd_wf _ (iv_good _ _ _ V)) l Il)|apply (tracks_wrap _ _ _ (iv_tracks _ _ _ V))]).
  assert (St : forall i m v, nth_error (nodes_of cs) i = Some (m, v) -> kind_of (state_of (s_w t) i) = kind_of (state_of (s_w s) i) /\ (m = ANCHOR -> state_of (s_w t) i = state_of (s_w s) i)).
  { intros i m v Ei. destruct (mode_of rob cs _ i m v V Ei) as (l & G & M & _ & Es & K). destruct (mode_of rob cs _ i m v Vt Ei) as (l' & G' & _ & _ & Es' & K'). split; [congruence|]. intros ->. assert (l' = l) as -> by (unfold get_node in *; rewrite (sk_graph _ _ Sk) in G'; congruence).
    rewrite Es, Es', (C35_anchors lin LM k la tol s t (gd_wf _ (iv_good _ _ _ V)) Et l M). reflexivity. }
  rewrite (tracks_chi2 _ _ _ (iv_tracks _ _ _ V)), (tracks_chi2 _ _ _ (iv_tracks _ _ _ Vt)) in Le. pose proof (L _ St) as Ge. split.
  - intros st' H. apply Rle_trans with (lsum cs (call_chi2 (state_of (s_w s)))); auto. apply L. intros i m v Ei. destruct (H i m v Ei) as [K A]. destruct (St i m v Ei) as [K' A']. split; [congruence|]. intros Em. rewrite A, A'; auto.
  - rewrite (tracks_chi2 _ _ _ (iv_tracks _ _ _ V)), (tracks_chi2 _ _ _ (iv_tracks _ _ _ Vt)). lra.
Qed.
Print Assumptions C89_least_squares.

(** *** So robust functions do not make Levenberg-Marquardt robust: a pose at the least-squares optimum of two conflicting priors (at x = 2,
    and at x = -1 with twice the information) stays there with the Cauchy function,
    where one Gauss-Newton step moves it to x = -1/4 and lowers the robust cost *)
Definition tugged : list pycall := [CNode STANDARD (P2 (mkV3 0 0 0)); CPose2d (mkV3 2 0 0) 0 id3; CPose2d (mkV3 (-1) 0 0) 0 twice].
Lemma tugged_ok : typed [] tugged /\ Forall call_info tugged /\ Forall solid_call tugged /\ forall i, (i < length (nodes_of tugged))%nat -> held tugged i.
Proof.
  split; [cbn; repeat split; auto; discriminate|]. split; [repeat (apply Forall_cons; [first [exact I | exact (id3_proper _) | exact (twice_proper _)]|]); apply Forall_nil|]. split; [repeat (apply Forall_cons; [exact I|]); apply Forall_nil|].
  intros [|i] Hi; [|cbn in Hi; lia]. eapply held_pose2d; [right; left; reflexivity|apply id3_positive].
Qed.
Lemma tugged_run lin rob : exists s, pycalls lin rob (solver_new world_new) tugged = Some s /\ forall i, state_of (s_w s) i = P2 (mkV3 0 0 0).
Proof. eexists; split; [cbv -[id3 twice IZR res_pose2d jac_pose2d lvec lmat l3 R0 R1]; reflexivity|intros [|[|i]]; reflexivity]. Qed.
Lemma prior_res a x : fc_res (c_pose2d (mkV3 a 0 0)) [P2 x] 0%nat = vx x - a /\ fc_res (c_pose2d (mkV3 a 0 0)) [P2 x] 1%nat = vy x /\ fc_res (c_pose2d (mkV3 a 0 0)) [P2 x] 2%nat = wrap_angle (vz x).
Proof. cbn -[res_pose2d]. unfold res_pose2d, wrap3, v3sub. cbn. rewrite !Rminus_0_r. auto. Qed.
Lemma prior_chi2 st a x : st 0%nat = P2 x -> call_chi2 st (CPose2d (mkV3 a 0 0) 0 id3) = 1 / 2 * (Rsqr (vx x - a) + Rsqr (vy x) + Rsqr (wrap_angle (vz x))) /\
  call_chi2 st (CPose2d (mkV3 a 0 0) 0 twice) = Rsqr (vx x - a) + Rsqr (vy x) + Rsqr (wrap_angle (vz x)).
Proof.
  intros S0. unfold call_chi2, call_factor. cbn [pycall_op map]. change (fc_dim (c_pose2d (mkV3 a 0 0))) with 3%nat. rewrite S0, quad_id3, quad_twice. destruct (prior_res a x) as (R0 & R1 & R2). rewrite R0, R1, R2. unfold Rsqr. split; field.
Qed.
Lemma tugged_chi2 rob w x : inv rob tugged w -> state_of w 0 = P2 x -> chi2_of w = 3 / 2 * (Rsqr (vx x) + Rsqr (vy x) + Rsqr (wrap_angle (vz x))) + 3.
Proof.
  intros V S0. rewrite (tracks_chi2 _ _ _ (iv_tracks _ _ _ V)). unfold tugged. rewrite !lsum_cons, lsum_nil. rewrite (proj1 (prior_chi2 _ 2 x S0)), (proj2 (prior_chi2 _ (-1) x S0)). unfold call_chi2 at 1, call_factor. cbn [pycall_op]. unfold Rsqr. field.
Qed.
Lemma tugged_iter lin rob s t e : exact lin -> rob <> RANSAC -> inv rob tugged (s_w s) -> state_of (s_w s) 0 = P2 (mkV3 0 0 0) -> 0 < s_lambda s -> lm_iter lin s = Some (t, e) ->
  inv rob tugged (s_w t) /\ state_of (s_w t) 0 = P2 (mkV3 0 0 0) /\ 0 < s_lambda t.
Proof.
  intros X NR V S0 La It. destruct tugged_ok as (T & P & _). destruct (lm_node lin rob tugged s t e X NR P V La It) as (d & w3 & Ed & V3 & Vt & Lt & U3 & Ee & Ut). split; auto. split; auto.
  assert (E0 : nth_error (nodes_of tugged) 0 = Some (STANDARD, P2 (mkV3 0 0 0))) by reflexivity. specialize (U3 0%nat _ _ E0). specialize (Ut 0%nat _ _ E0). cbn [val_set] in Ut. rewrite S0 in U3, Ut.
  assert (R : e = Rejected -> state_of (s_w t) 0 = P2 (mkV3 0 0 0)). { intros ->. rewrite Ut. cbn. unfold wrap3. cbn. rewrite wrap_angle_zero. reflexivity. }
  cbn [val_update] in U3. set (x := wrap3 _) in U3. assert (Wx : wrap_angle (vz x) = vz x) by (unfold x, wrap3; cbn [vz]; apply wrap_angle_id, wrap_angle_spec).
  assert (C0 : chi2_of (s_w s) = 3) by (rewrite (tugged_chi2 rob _ _ V S0); cbn; rewrite wrap_angle_zero; unfold Rsqr; field). pose proof (tugged_chi2 rob _ _ V3 U3) as C3. rewrite Wx in C3.
  destruct (Rlt_dec (chi2_of (s_w s) - chi2_of w3) 0) as [L|L].
  - apply R. rewrite Ee. unfold lm_decide, Rltb. destruct (Rlt_dec _ 0); [reflexivity|contradiction].
  - assert (Ne : e <> Rejected) by (rewrite Ee; unfold lm_decide, Rltb; destruct (Rlt_dec _ 0); [contradiction|]; destruct (Rlt_dec _ _); discriminate).
    assert (Hs : Rsqr (vx x) + Rsqr (vy x) + Rsqr (vz x) <= 0) by lra. pose proof (Rle_0_sqr (vx x)). pose proof (Rle_0_sqr (vy x)). pose proof (Rle_0_sqr (vz x)).
    assert (X0 : vx x = 0 /\ vy x = 0 /\ vz x = 0) by (split; [|split]; apply Rsqr_0_uniq; lra). assert (Ex : x = mkV3 0 0 0) by (destruct x as [a b c]; cbn in X0; destruct X0 as (-> & -> & ->); reflexivity).
    rewrite Ut. destruct e; try congruence; rewrite U3, Ex; reflexivity.
Qed.
Lemma tugged_loop lin rob k : exact lin -> rob <> RANSAC -> forall fuel iter s t j, inv rob tugged (s_w s) -> state_of (s_w s) 0 = P2 (mkV3 0 0 0) -> 0 < s_lambda s -> lm_loop lin fuel iter k s = Some (t, j) -> state_of (s_w t) 0 = P2 (mkV3 0 0 0).
Proof.
  intros X NR. induction fuel as [|fuel IH]; intros iter s t j V S0 La E; [discriminate|]. cbn in E. destruct (lm_iter lin s) as [[s1 e]|] eqn:I; [|discriminate]. destruct (tugged_iter lin rob s s1 e X NR V S0 La I) as (V1 & S1 & L1).
  assert (Go : (if (S iter <? k)%nat then lm_loop lin fuel (S iter) k s1 else Some (s1, 0%nat)) = Some (t, j) -> state_of (s_w t) 0 = P2 (mkV3 0 0 0)) by (destruct (S iter <? k)%nat; intros Q; [eapply IH; eauto|injection Q as <- <-; exact S1]).
  destruct e; auto. injection E as <- <-. exact S1.
Qed.
(** the Gauss-Newton step *)
Lemma tugged_gn lin k la tol s t : exact lin -> inv CAUCHY tugged (s_w s) -> one_step 0 (s_w s) -> state_of (s_w s) 0 = P2 (mkV3 0 0 0) -> solve lin GN k la tol s = Some t -> state_of (s_w t) 0 = P2 (mkV3 (-1/4) 0 0).
Proof.
  intros X V On S0 Et. destruct tugged_ok as (T & P & _). assert (NR : CAUCHY <> RANSAC) by discriminate. destruct (gn_node lin CAUCHY tugged k la tol s t X V On Et) as (d & Ed & U).
  set (w := s_w s) in *. destruct (dir_vector CAUCHY tugged w (fun _ k => match k with O => 1 / 4 | _ => 0 end) V) as [y0 Y0]. { intros [|[|i]] v j Ei; discriminate. }
  assert (Y : forall j, (j < 3)%nat -> inc_of w y0 0 j = match j with O => 1 / 4 | _ => 0 end) by (intros j Hj; apply Y0; [cbn; lia|rewrite S0; exact Hj]).
  assert (J : forall a y i, (i < 3)%nat -> f_jd (state_of w) (inc_of w y) (c_pose2d (mkV3 a 0 0)) [0%nat] i = inc_of w y 0 i) by (intros a y i Hi; apply (jd_pose2d _ _ _ _ _ _ S0 Hi)).
  assert (C2 : f_c (state_of w) (c_pose2d (mkV3 2 0 0), [0%nat], id3) = 2) by (transitivity (call_chi2 (state_of w) (CPose2d (mkV3 2 0 0) 0 id3)); [reflexivity|]; rewrite (proj1 (prior_chi2 _ _ _ S0)); cbn; rewrite wrap_angle_zero; unfold Rsqr; field).
  assert (C1 : f_c (state_of w) (c_pose2d (mkV3 (-1) 0 0), [0%nat], twice) = 1) by (transitivity (call_chi2 (state_of w) (CPose2d (mkV3 (-1) 0 0) 0 twice)); [reflexivity|]; rewrite (proj2 (prior_chi2 _ _ _ S0)); cbn; rewrite wrap_angle_zero; unfold Rsqr; field).
  assert (Sb : same_below (g_stateDim (w_graph w)) d y0).
  { apply (step_unique 0 s d y0 (gd_wf _ (iv_good _ _ _ V)) On). intros y. fold w. rewrite <- Ed. rewrite (facts_form CAUCHY tugged w V P NR), (facts_rhs CAUCHY tugged w V P NR), !lift_facts. unfold tugged. rewrite !lsum_cons, !lsum_nil. unfold lift, call_factor. cbn [pycall_op]. unfold f_f, f_g, f_w. rewrite C1, C2, !cauchy_weight by lra.
    change (fc_dim (c_pose2d (mkV3 2 0 0))) with 3%nat. change (fc_dim (c_pose2d (mkV3 (-1) 0 0))) with 3%nat. cbn [map]. rewrite S0, !quad_id3, !quad_twice, !J by lia. destruct (prior_res 2 (mkV3 0 0 0)) as (R0 & R1 & R2). destruct (prior_res (-1) (mkV3 0 0 0)) as (R0' & R1' & R2'). rewrite R0, R1, R2, R0', R1', R2'. cbn [vx vy vz]. rewrite wrap_angle_zero, !Y by lia. field. }
  assert (E0 : nth_error (nodes_of tugged) 0 = Some (STANDARD, P2 (mkV3 0 0 0))) by reflexivity. rewrite (U 0%nat _ _ E0). cbv beta iota.
  rewrite (val_update_ext _ _ (fun j => - match j with O => 1 / 4 | _ => 0 end)).
  - rewrite S0. cbn. unfold wrap3, v3add, dx3. cbn. f_equal. replace (0 + - 0) with 0 by ring. rewrite wrap_angle_zero. f_equal; field.
  - intros j Hj. f_equal. rewrite (below_inc CAUCHY tugged w V d y0 0 j Sb) by (auto; cbn; lia). apply Y. rewrite S0 in Hj. exact Hj.
Qed.
Lemma tugged_cost st x : st 0%nat = P2 (mkV3 x 0 0) -> robust_cost CAUCHY tugged st = ln (1 + 1 / 2 * Rsqr (x - 2)) + ln (1 + Rsqr (x + 1)).
Proof.
  intros S0. unfold robust_cost, tugged. rewrite !lsum_cons, lsum_nil. cbn [loss]. rewrite (proj1 (prior_chi2 _ _ _ S0)), (proj2 (prior_chi2 _ _ _ S0)). unfold call_chi2 at 1, call_factor. cbn [pycall_op vx vy vz]. rewrite wrap_angle_zero, Rplus_0_r, ln_1.
  replace (x - -1) with (x + 1) by ring. unfold Rsqr. rewrite !Rmult_0_l, !Rplus_0_r. ring.
Qed.
Theorem C89_lm_refuted : exists cs, typed [] cs /\ Forall call_info cs /\ Forall solid_call cs /\ (forall i, (i < length (nodes_of cs))%nat -> held cs i) /\
  forall lin k lambda tol, exact lin -> exists s t t', pycalls lin CAUCHY (solver_new world_new) cs = Some s /\ jacobians_right cs (state_of (s_w s)) /\
  solve lin LM k lambda tol s = Some t /\ state_of (s_w t) 0 = state_of (s_w s) 0 /\ solve lin GN k lambda tol s = Some t' /\ state_of (s_w t') 0 = P2 (mkV3 (-1/4) 0 0) /\
  robust_cost CAUCHY cs (state_of (s_w t')) < robust_cost CAUCHY cs (state_of (s_w s)) /\ ~ stationary CAUCHY cs (state_of (s_w s)).
Proof.
  exists tugged. destruct tugged_ok as (T & P & So & Hd). do 4 (split; [assumption|]). intros lin k la tol X. destruct (tugged_run lin CAUCHY) as (s & E & Si). pose proof (Si 0%nat) as S0. destruct (session_inv lin CAUCHY _ T) as (s0 & E0 & V & Fi). rewrite E in E0. injection E0 as <-.
  destruct (solve_total lin LM k la tol s (gd_wf _ (iv_good _ _ _ V))) as [t Et]. destruct (solve_total lin GN k la tol s (gd_wf _ (iv_good _ _ _ V))) as [t' Et']. exists s, t, t'. split; auto.
  assert (J : jacobians_right tugged (state_of (s_w s))).
  { intros c [<-|[<-|[<-|[]]]] N; [destruct (N eq_refl)| |]; unfold jacobian_right, call_factor; cbn [pycall_op map]; rewrite S0; apply pose2d_jac; cbn [vz]; rewrite Rminus_0_r, wrap_angle_zero; pose proof PI_RGT_0; lra. }
  split; [exact J|]. split; auto.
  assert (St : state_of (s_w t) 0 = state_of (s_w s) 0).
  { unfold solve in Et. destruct (optimize_levenberg_marquardt lin k _) as [[u j]|] eqn:Q; [|discriminate]. cbn in Et. injection Et as <-. unfold optimize_levenberg_marquardt in Q. rewrite S0. eapply (tugged_loop lin CAUCHY k X); [discriminate| | | |exact Q]; cbn; auto. lra. }
  split; [exact St|]. split; auto. assert (On : one_step 0 (s_w s)) by (apply (held_one CAUCHY tugged); auto; discriminate).
  pose proof (tugged_gn lin k la tol s t' X V On S0 Et') as S1. split; [exact S1|]. split.
  - rewrite (tugged_cost _ _ S0), (tugged_cost _ _ S1). unfold Rsqr. rewrite <- !ln_mult by lra. apply ln_increasing; lra.
  - intros Sta. assert (Rg : rigid_states (state_of (s_w s))) by (intros i T0 Ei; rewrite Si in Ei; discriminate).
    destruct (C89_stationary lin CAUCHY tugged GN k la tol s X ltac:(discriminate) T P ltac:(auto) E J Rg) as (t2 & E2 & S2); auto.
    { intros i m v _ _. rewrite Si. cbn. pose proof PI_RGT_0. lra. }
    rewrite Et' in E2. injection E2 as <-. specialize (S2 0%nat). rewrite S1, S0 in S2. injection S2 as S2. lra.
Qed.
Print Assumptions C89_lm_refuted.

(** *** For 3D poses with residuals left the Jacobians are not right (C48), and solving may
    stop on a slope: a pose half way between two priors, with more information along y *)
Definition uneven : nat -> nat -> R := fun i j => if Nat.eqb i j then (if Nat.eqb i 4 then 2 else 1) else 0.
Definition torn : list pycall := [CNode STANDARD (P3 m4id); CPose3d (trans (mkV3 1 1 0)) 0 uneven; CPose3d (trans (mkV3 (-1) (-1) 0)) 0 uneven].
Lemma quad_uneven u v : quad 6 uneven u v = u 0%nat * v 0%nat + u 1%nat * v 1%nat + u 2%nat * v 2%nat + u 3%nat * v 3%nat + 2 * (u 4%nat * v 4%nat) + u 5%nat * v 5%nat.
Proof. unfold quad, uneven. cbn. ring. Qed.
Lemma uneven_proper : proper 6 uneven.
Proof. split. { intros i j _ _. unfold uneven. rewrite Nat.eqb_sym. destruct (Nat.eqb_spec j i) as [->|]; reflexivity. } intros x. rewrite quad_uneven. nra. Qed.
Lemma uneven_positive : positive 6 uneven.
Proof. intros x Z i Hi. rewrite quad_uneven in Z. destruct i as [|[|[|[|[|[|i]]]]]]; [| | | | | |lia]; nra. Qed.
Lemma torn_ok : typed [] torn /\ Forall call_info torn /\ Forall solid_call torn /\ forall i, (i < length (nodes_of torn))%nat -> held torn i.
Proof.
  split; [cbn; repeat split; auto; discriminate|]. split; [repeat (apply Forall_cons; [first [exact I | exact uneven_proper]|]); apply Forall_nil|]. split; [apply Forall_cons; [exact (rigid_solid _ rigid_id)|repeat (apply Forall_cons; [exact I|]); apply Forall_nil]|].
  intros [|i] Hi; [|cbn in Hi; lia]. eapply held_pose3d; [right; left; reflexivity|apply uneven_positive].
Qed.
Lemma torn_run lin rob : exists s, pycalls lin rob (solver_new world_new) torn = Some s /\ state_of (s_w s) 0 = P3 m4id /\ forall i, state_of (s_w s) (S i) = P2 (mkV3 0 0 0).
Proof. eexists; split; [cbv -[uneven trans m4id IZR res_pose3d jac_pose3d lvec lmat l6 R0 R1]; reflexivity|split; [reflexivity|intros [|i]; reflexivity]]. Qed.
Lemma torn_res t : res_pose3d (trans t) m4id = mkV6 v3zero (v3opp t).
Proof. unfold res_pose3d, se3_mul. rewrite m4mul_id_l. unfold trans. rewrite inv_of_Rt. replace (m3tr m3id) with m3id by lin. rewrite m3app_id. apply ln_trans. Qed.
Lemma torn_balanced rob st : st 0%nat = P3 m4id -> balanced rob torn st.
Proof.
  intros S0 d _. unfold torn. rewrite !lsum_cons, lsum_nil. unfold pull, call_chi2, call_factor. cbn [pycall_op map]. rewrite S0.
  change (fc_dim (c_pose3d (trans (mkV3 1 1 0)))) with 6%nat. change (fc_dim (c_pose3d (trans (mkV3 (-1) (-1) 0)))) with 6%nat. rewrite !quad_uneven. cbn [fc_res c_pose3d]. rewrite !torn_res. cbn [fc_jac c_pose3d]. unfold v3opp, v3zero. cbn [l6 l3 app lvec nth vx vy vz v6w v6v].
  set (J := fun i => row_dir (lmat jac_pose3d i) 0 [P3 m4id] [d 0%nat]). change (row_dir (lmat jac_pose3d ?i) 0 [P3 m4id] [d 0%nat]) with (J i).
  match goal with |- context[sqrt ?a] => set (a1 := a) end. match goal with |- context[_ + (robust_eval rob 0 (sqrt ?a) * _ + 0)] => replace a with a1 by (unfold a1; ring) end. ring.
Qed.
(** the slope of one prior when the pose turns about z *)
Lemma torn_slope rob t F : t = mkV3 1 1 0 \/ t = mkV3 (-1) (-1) 0 -> rob <> RANSAC -> F 0 = m4id -> (forall s, short (F s)) -> m4_derivative F 0 (m4mul (twist (mkV6 (mkV3 0 0 1) v3zero)) m4id) ->
  derivable_pt_lim (fun s => loss rob (1 / 2 * quad 6 uneven (lvec (l6 (res_pose3d (trans t) (F s)))) (lvec (l6 (res_pose3d (trans t) (F s)))))) 0 (robust_eval rob 0 (sqrt (3 / 2)) / 2).
Proof.
  intros Ht NR F0 Sh D. assert (R0 : rigid (F 0)) by (rewrite F0; apply rigid_id).
  destruct (pose3d_der (trans t) F (mkV6 (mkV3 0 0 1) v3zero) (trans_rigid t) R0 Sh) as ((A1 & A2 & A3) & (B1 & B2 & B3)). { rewrite F0. reflexivity. } { rewrite F0. exact D. }
  rewrite F0 in B1, B2, B3.
  eapply dl_eq; [apply (loss_rate rob (fun s => 1 / 2 * quad 6 uneven (lvec (l6 (res_pose3d (trans t) (F s)))) (lvec (l6 (res_pose3d (trans t) (F s)))))); [exact NR| |]|].
  - intros s. destruct uneven_proper as [_ Ps]. specialize (Ps (lvec (l6 (res_pose3d (trans t) (F s))))). lra.
  - apply (quad_rate_n 6 uneven (fun s => lvec (l6 (res_pose3d (trans t) (F s)))) (lvec [0; 0; 1; vy t / 2; - vx t / 2; 0])); [apply uneven_proper|]. intros i Hi.
    destruct i as [|[|[|[|[|[|i]]]]]]; [| | | | | |lia]; cbn [l6 l3 app lvec nth]; (eapply dl_eq; [eassumption|]); cbn; unfold trans, se3_of_Rt, m4id; cbn; field.
  - rewrite !quad_uneven, F0, torn_res. destruct Ht as [-> | ->]; unfold v3opp, v3zero; cbn [l6 l3 app lvec nth vx vy vz v6w v6v].
    + replace (1 / 2 * _) with (3 / 2) by field. field.
    + replace (1 / 2 * _) with (3 / 2) by field. field.
Qed.
Theorem C89_3d_refuted : exists cs, typed [] cs /\ Forall call_info cs /\ Forall solid_call cs /\ (forall i, (i < length (nodes_of cs))%nat -> held cs i) /\
  forall lin rob m k lambda tol, exact lin -> rob <> RANSAC -> exists s t, pycalls lin rob (solver_new world_new) cs = Some s /\ rigid_states (state_of (s_w s)) /\
  solve lin m k lambda tol s = Some t /\ (forall i, state_of (s_w t) i = state_of (s_w s) i) /\ ~ stationary rob cs (state_of (s_w s)).
Proof.
  exists torn. destruct torn_ok as (T & P & So & Hd). do 4 (split; [assumption|]). intros lin rob m k la tol X NR. destruct (torn_run lin rob) as (s & E & S0 & Si).
  assert (Rg : rigid_states (state_of (s_w s))) by (intros [|i] T0 Ei; [rewrite S0 in Ei; injection Ei as <-; apply rigid_id|rewrite Si in Ei; discriminate]).
  destruct (C85_balanced lin rob torn m k la tol s X NR T P ltac:(auto) E (torn_balanced rob _ S0)) as (t & Et & St & _).
  { intros [|i] m0 v Ei NA; [|destruct i; discriminate]. rewrite S0. cbn [settled]. split; [apply rigid_id|]. exists 0. pose proof PI_RGT_0. split; [split; [lra|]|split; [auto|left; lra]]. rewrite cos_0. cbn. unfold m3trace. cbn. ring. }
  exists s, t. split; auto. split; auto. split; auto. split; auto. intros Sta.
  set (d := fun (i k : nat) => match i, k with 0%nat, 2%nat => 1 | _, _ => 0 end). pose proof (some_motion torn _ d Rg) as M. specialize (M ltac:(intros [|[|i]] v j Ei; discriminate)). specialize (Sta d _ M).
  destruct M as [M _]. specialize (M 0%nat). destruct M as [C0 M]. rewrite S0 in C0, M. destruct M as (F & EF & Sh & D).
  assert (F0 : F 0 = m4id) by (rewrite EF in C0; injection C0; auto).
  assert (W : 0 < robust_eval rob 0 (sqrt (3 / 2))).
  { destruct rob; cbn [robust_eval]; try congruence; try lra; rewrite ?sqrt_sqrt by lra; try lra. destruct (Rltb _ _); [lra|]. apply Rdiv_lt_0_compat; [lra|]. apply sqrt_lt_R0. lra. }
  assert (Q : derivable_pt_lim (fun s0 => robust_cost rob torn (fun i => curve (state_of (s_w s) i) (d i) s0)) 0 (robust_eval rob 0 (sqrt (3 / 2)))); [|pose proof (dl_unique _ _ _ _ Q Sta); lra].
  eapply dl_eq; [eapply dl_ext; [|apply dl_plus; [apply (torn_slope rob (mkV3 1 1 0) F); auto|apply (torn_slope rob (mkV3 (-1) (-1) 0) F); auto]]|field].
  intros a. unfold robust_cost, torn. rewrite !lsum_cons, lsum_nil. unfold call_chi2, call_factor. cbn [pycall_op map]. rewrite S0, EF.
  replace (loss rob 0) with 0; [cbn [fc_dim fc_res c_pose3d]; ring|]. destruct rob; cbn [loss]; try reflexivity; [rewrite sqrt_0; unfold Rltb; destruct (Rlt_dec 0 1); [reflexivity|lra]|rewrite Rplus_0_r, ln_1; reflexivity|field].
Qed.
Print Assumptions C89_3d_refuted.

(** *** Examples: two equal priors that pull to opposite sides; the conflicting priors above;
    a landmark seen from an anchored pose *)
Definition even_calls : list pycall := [CNode STANDARD (P2 (mkV3 0 0 0)); CPose2d (mkV3 1 0 0) 0 id3; CPose2d (mkV3 (-1) 0 0) 0 id3].
Lemma even_run lin rob : exists s, pycalls lin rob (solver_new world_new) even_calls = Some s /\ forall i, state_of (s_w s) i = P2 (mkV3 0 0 0).
Proof. eexists; split; [cbv -[id3 twice IZR res_pose2d jac_pose2d lvec lmat l3 R0 R1]; reflexivity|intros [|[|i]]; reflexivity]. Qed.
Example C89_ex_stationary : forall lin rob m, exact lin -> rob <> RANSAC -> exists s t, pycalls lin rob (solver_new world_new) even_calls = Some s /\ stationary rob even_calls (state_of (s_w s)) /\
  solve lin m 5 0 0 s = Some t /\ state_of (s_w t) 0 = P2 (mkV3 0 0 0) /\ chi2_of (s_w s) = 1.
Proof.
  intros lin rob m X NR. destruct (even_run lin rob) as (s & E & Si). pose proof (Si 0%nat) as S0.
  assert (T : typed [] even_calls) by (cbn; repeat split; auto; discriminate). assert (P : Forall call_info even_calls) by (repeat (apply Forall_cons; [first [exact I | exact (id3_proper _)]|]); apply Forall_nil).
  assert (J : jacobians_right even_calls (state_of (s_w s))).
  { intros c [<-|[<-|[<-|[]]]] N; [destruct (N eq_refl)| |]; unfold jacobian_right, call_factor; cbn [pycall_op map]; rewrite S0; apply pose2d_jac; cbn [vz]; rewrite Rminus_0_r, wrap_angle_zero; pose proof PI_RGT_0; lra. }
  assert (Rg : rigid_states (state_of (s_w s))) by (intros i T0 Ei; rewrite Si in Ei; discriminate).
  assert (St : stationary rob even_calls (state_of (s_w s))).
  { apply (balanced_stationary rob even_calls _ NR P J Rg). intros d _. unfold even_calls. rewrite !lsum_cons, lsum_nil. unfold pull. rewrite (proj1 (prior_chi2 _ 1 _ S0)), (proj1 (prior_chi2 _ (-1) _ S0)). unfold call_factor. cbn [pycall_op map]. rewrite S0.
    change (fc_dim (c_pose2d (mkV3 1 0 0))) with 3%nat. change (fc_dim (c_pose2d (mkV3 (-1) 0 0))) with 3%nat. rewrite !quad_id3. destruct (prior_res 1 (mkV3 0 0 0)) as (R0 & R1 & R2). destruct (prior_res (-1) (mkV3 0 0 0)) as (R0' & R1' & R2'). rewrite R0, R1, R2, R0', R1', R2'. cbn [vx vy vz].
    rewrite wrap_angle_zero. replace (Rsqr (0 - -1)) with (Rsqr (0 - 1)) by (unfold Rsqr; ring). change (fc_jac (c_pose2d (mkV3 (-1) 0 0))) with (fc_jac (c_pose2d (mkV3 1 0 0))). ring. }
  destruct (C89_stationary lin rob even_calls m 5 0 0 s X NR T P) as (t & Et & Se); auto.
  - intros _. split; [repeat (apply Forall_cons; [exact I|]); apply Forall_nil|]. intros [|i] Hi; [|cbn in Hi; lia]. eapply held_pose2d; [right; left; reflexivity|apply id3_positive].
  - intros i m0 v _ _. rewrite Si. cbn. pose proof PI_RGT_0. lra.
  - exists s, t. split; auto. split; auto. split; auto. rewrite Se. split; auto. destruct (session_inv lin rob _ T) as (s0 & E0 & V & _). rewrite E in E0. injection E0 as <-. rewrite (tracks_chi2 _ _ _ (iv_tracks _ _ _ V)). unfold even_calls. rewrite !lsum_cons, lsum_nil, (proj1 (prior_chi2 _ 1 _ S0)), (proj1 (prior_chi2 _ (-1) _ S0)).
    unfold call_chi2, call_factor. cbn [pycall_op vx vy vz]. rewrite wrap_angle_zero. unfold Rsqr. field.
Qed.
Example C89_ex_downhill : forall lin, exact lin -> exists s t, pycalls lin CAUCHY (solver_new world_new) tugged = Some s /\ solve lin GN 1 0 0 s = Some t /\ exists d, val_update (state_of (s_w s) 0) (d 0%nat) = state_of (s_w t) 0 /\ 
  forall g, motion tugged (state_of (s_w s)) d g -> exists e, 0 < e /\ forall a, 0 < a < e -> robust_cost CAUCHY tugged (fun i => g i a) < robust_cost CAUCHY tugged (state_of (s_w s)).
Proof.
  intros lin X. destruct tugged_ok as (T & P & So & Hd). destruct (tugged_run lin CAUCHY) as (s & E & Si). pose proof (Si 0%nat) as S0. destruct (session_inv lin CAUCHY _ T) as (s0 & E0 & V & Fi). rewrite E in E0. injection E0 as <-.
  destruct (solve_total lin GN 1 0 0 s (gd_wf _ (iv_good _ _ _ V))) as [t Et]. exists s, t. split; auto. split; auto.
  assert (J : jacobians_right tugged (state_of (s_w s))).
  { intros c [<-|[<-|[<-|[]]]] N; [destruct (N eq_refl)| |]; unfold jacobian_right, call_factor; cbn [pycall_op map]; rewrite S0; apply pose2d_jac; cbn [vz]; rewrite Rminus_0_r, wrap_angle_zero; pose proof PI_RGT_0; lra. }
  assert (Rg : rigid_states (state_of (s_w s))) by (intros i T0 Ei; rewrite Si in Ei; discriminate).
  destruct (C89_downhill lin CAUCHY tugged 1 0 0 s t X ltac:(discriminate) T P So Hd E J Rg Et) as (d & _ & U & [St|D]).
  - exfalso. destruct (C89_stationary lin CAUCHY tugged GN 1 0 0 s X ltac:(discriminate) T P ltac:(auto) E J Rg) as (t2 & E2 & S2); auto. { intros i m v _ _. rewrite Si. cbn. pose proof PI_RGT_0. lra. }
    rewrite Et in E2. injection E2 as <-. specialize (S2 0%nat). rewrite (tugged_gn lin 1 0 0 s t X V) in S2; auto; [rewrite S0 in S2; injection S2 as S2; lra|apply (held_one CAUCHY tugged); auto; discriminate].
  - exists d. split; [symmetry; apply (U 0%nat _ _ eq_refl)|exact D].
Qed.
Definition spot_calls : list pycall := [CNode ANCHOR (P3 m4id); CNode STANDARD (L3 (mkV3 0 0 0)); CLandmark3d (mkV3 1 2 3) 0 1 id3 false; CLandmark3d (mkV3 4 2 3) 0 1 id3 false].
Lemma spot_run lin rob : exists s, pycalls lin rob (solver_new world_new) spot_calls = Some s /\ state_of (s_w s) 0 = P3 m4id /\ state_of (s_w s) 1 = L3 (mkV3 0 0 0) /\ forall i, state_of (s_w s) (S (S i)) = P2 (mkV3 0 0 0).
Proof. eexists; split; [cbv -[id3 m4id IZR res_landmark3d jac_landmark3d lvec lmat l3 R0 R1]; reflexivity|split; [reflexivity|split; [reflexivity|intros [|i]; reflexivity]]]. Qed.
Example C89_ex_landmarks : forall lin rob, exact lin -> rob <> RANSAC -> exists s t, pycalls lin rob (solver_new world_new) spot_calls = Some s /\ solve lin GN 1 0 0 s = Some t /\
  (stationary rob spot_calls (state_of (s_w s)) <-> state_of (s_w t) 1 = L3 (mkV3 0 0 0)).
Proof.
  intros lin rob X NR. destruct (spot_run lin rob) as (s & E & S0 & S1 & Si).
  assert (T : typed [] spot_calls) by (cbn; repeat split; auto; discriminate). assert (P : Forall call_info spot_calls) by (repeat (apply Forall_cons; [first [exact I | exact (id3_proper _)]|]); apply Forall_nil).
  assert (So : Forall solid_call spot_calls) by (apply Forall_cons; [exact (rigid_solid _ rigid_id)|repeat (apply Forall_cons; [exact I|]); apply Forall_nil]).
  assert (Hd : forall i, (i < length (nodes_of spot_calls))%nat -> held spot_calls i).
  { assert (H0 : held spot_calls 0) by (eapply held_anchor; reflexivity). intros [|[|i]] Hi; [exact H0| |cbn in Hi; lia]. eapply held_landmark3d; [do 2 right; left; reflexivity|apply id3_positive|exact H0]. }
  assert (J : jacobians_right spot_calls (state_of (s_w s))) by (intros c [<-|[<-|[<-|[<-|[]]]]] N; [destruct (N eq_refl)|destruct (N eq_refl)| |]; eapply C46_jacobian; eauto; apply rigid_id).
  assert (Rg : rigid_states (state_of (s_w s))) by (intros [|[|i]] T0 Ei; [rewrite S0 in Ei; injection Ei as <-; apply rigid_id|rewrite S1 in Ei; discriminate|rewrite Si in Ei; discriminate]).
  destruct (session_inv lin rob _ T) as (s0 & E0 & V & Fi). rewrite E in E0. injection E0 as <-. destruct (solve_total lin GN 1 0 0 s (gd_wf _ (iv_good _ _ _ V))) as [t Et]. exists s, t. split; auto. split; auto.
  assert (Kd : forall i m v, nth_error (nodes_of spot_calls) i = Some (m, v) -> m <> ANCHOR -> kind_of v = KL2 \/ kind_of v = KL3) by (intros [|[|[|i]]] m v Ei NA; try discriminate; injection Ei as <- <-; [congruence|right; reflexivity]).
  rewrite (C89_landmarks lin rob spot_calls 1 0 0 s t X NR T P So Hd Kd E J Rg Et). split.
  - intros H. rewrite (H 1%nat _ _ eq_refl), S1; [reflexivity|discriminate].
  - intros H [|[|[|i]]] m v Ei NA; try discriminate; injection Ei as <- <-; [congruence|]. rewrite S1. exact H.
Qed.
Example C89_ex_least_squares : forall lin rob, exists s t, pycalls lin rob (solver_new world_new) tugged = Some s /\ solve lin LM 9 0 0 s = Some t /\ least_squares tugged (state_of (s_w s)) /\ chi2_of (s_w t) = chi2_of (s_w s) /\ chi2_of (s_w s) = 3.
Proof.
  intros lin rob. destruct tugged_ok as (T & P & So & Hd). destruct (tugged_run lin rob) as (s & E & Si). pose proof (Si 0%nat) as S0. destruct (session_inv lin rob _ T) as (s0 & E0 & V & Fi). rewrite E in E0. injection E0 as <-.
  destruct (solve_total lin LM 9 0 0 s (gd_wf _ (iv_good _ _ _ V))) as [t Et]. exists s, t. split; auto. split; auto.
  assert (C : forall st x, st 0%nat = P2 x -> lsum tugged (call_chi2 st) = 3 / 2 * (Rsqr (vx x) + Rsqr (vy x) + Rsqr (wrap_angle (vz x))) + 3).
  { intros st x Sx. unfold tugged. rewrite !lsum_cons, lsum_nil. rewrite (proj1 (prior_chi2 _ 2 x Sx)), (proj2 (prior_chi2 _ (-1) x Sx)). unfold call_chi2 at 1, call_factor. cbn [pycall_op]. unfold Rsqr. field. }
  assert (C3 : lsum tugged (call_chi2 (state_of (s_w s))) = 3) by (rewrite (C _ _ S0); cbn; rewrite wrap_angle_zero; unfold Rsqr; field).
  assert (L : least_squares tugged (state_of (s_w s))).
  { intros st' H. destruct (H 0%nat _ _ eq_refl) as [K _]. rewrite S0 in K. rewrite C3. destruct (st' 0%nat) as [x|? |? ?|?|?] eqn:Sx; try discriminate. rewrite (C _ _ Sx). pose proof (Rle_0_sqr (vx x)). pose proof (Rle_0_sqr (vy x)). pose proof (Rle_0_sqr (wrap_angle (vz x))). lra. }
  split; [exact L|]. split; [apply (C89_least_squares lin rob tugged 9 0 0 s t T E Et L)|]. rewrite (tracks_chi2 _ _ _ (iv_tracks _ _ _ V)). exact C3.
Qed.
