(** C90: Levenberg-Marquardt comes to an end. *)
Require Import Reals List Arith ZArith Lia Lra Bool.
From Verif Require Import Lin LinFacts SpecGeom SO3 SE3 SO3Exp SO3Misc SE3Alg SE3Ln Angle AngleProofs Nodes Robust Graph Sums Solve SpecSolve SolveIndex SolveFrame SolveSums SolveBuild SolveProofs Session SessionProofs FrameFactors.
From Verif Require Import Factors SpecFactors FactorsDer Factors3D Factors3DLn FactorsMore SpecFrame Gauss FrameSolve SpecSolvable SolvableSession FactorsSession PropFrame PropSolvable SpecMapping MappingSession PropMapping LMMapping SpecReorder Reorder ReorderSolve PropReorder SpecFixed Fixed PropFixed SpecTree Tree SpecParts Parts PropParts Infos PropInfos PropFactors PropSolve SpecRobustCost RobustCost PropRobustCost SpecLMStops LMStops.
Import ListNotations.
Local Open Scope R_scope.

Lemma above x : exists N, x < INR N.
Proof.
  destruct (archimed x) as [A _]. exists (Z.to_nat (up x)). rewrite INR_IZR_INZ. destruct (Z_le_gt_dec 0 (up x)) as [H|H]; [rewrite Z2Nat.id by auto; lra|].
  assert (IZR (up x) <= 0) by (apply IZR_le; lia). assert (0 <= IZR (Z.of_nat (Z.to_nat (up x)))) by (apply IZR_le; lia). lra.
Qed.
(** *** With a positive tolerance and the plain quadratic cost, Levenberg-Marquardt reports
    convergence: from some number of iterations on, allowing more changes nothing *)
Theorem C90_converges : forall lin cs lambda tol s, exact lin -> typed [] cs -> Forall call_info cs -> flat_nodes cs -> pycalls lin QUADRATIC (solver_new world_new) cs = Some s ->
  rigid_states (state_of (s_w s)) -> jacobians_right_below cs (state_of (s_w s)) -> 0 < tol ->
  exists K n t, (0 < n <= K)%nat /\ forall k, (K <= k)%nat -> optimize_levenberg_marquardt lin k (with_tol (with_lambda s lambda) tol) = Some (t, n) /\ solve lin LM k lambda tol s = Some t.
Proof.
  intros lin cs la tol s X T P Fl E Rg J Ht. destruct (session_inv lin QUADRATIC cs T) as (s0 & E0 & V & _). rewrite E in E0. injection E0 as <-.
  set (s1 := with_lambda (with_tol (with_lambda s la) tol) (1 / 100000)). pose proof (tracks_chi2 _ _ _ (iv_tracks _ _ _ V)) as C.
  destruct (above (chi2_of (s_w s) / tol)) as [N HN].
  assert (Rd : ready cs (state_of (s_w s)) (chi2_of (s_w s)) tol s1) by (constructor; cbn; auto; [intros i m v _; split; auto|lra|lra]).
  destruct (always_stops lin cs (state_of (s_w s)) (chi2_of (s_w s)) tol X P Fl Ht Rg) with (N := N) (s := s1) as (K & t & j & Hj & H); auto.
  - intros st R L. apply J; auto. rewrite <- C. exact L.
  - change (s_w s1) with (s_w s). apply (Rmult_lt_compat_r tol) in HN; auto. unfold Rdiv in HN. rewrite Rmult_assoc, Rinv_l, Rmult_1_r in HN by lra. exact HN.
  - exists K, j, t. split; auto. intros k Hk. assert (O : optimize_levenberg_marquardt lin k (with_tol (with_lambda s la) tol) = Some (t, j)) by (unfold optimize_levenberg_marquardt; fold s1; rewrite (H (S k) 0%nat k) by lia; reflexivity).
    split; auto. unfold solve. rewrite O. reflexivity.
Qed.
Print Assumptions C90_converges.

(** *** The reason: unless chi2 is stationary, damping the step enough lowers it *)
Theorem C90_progress : forall lin cs s, exact lin -> typed [] cs -> Forall call_info cs -> flat_nodes cs -> pycalls lin QUADRATIC (solver_new world_new) cs = Some s ->
  rigid_states (state_of (s_w s)) -> jacobians_right cs (state_of (s_w s)) ->
  exists Lam, forall lambda tol t e, Lam <= lambda -> lm_iter lin (with_tol (with_lambda s lambda) tol) = Some (t, e) ->
    e <> Rejected /\ (chi2_of (s_w t) < chi2_of (s_w s) \/ stationary QUADRATIC cs (state_of (s_w s))).
Proof.
  intros lin cs s X T P Fl E Rg J. destruct (session_inv lin QUADRATIC cs T) as (s0 & E0 & V & _). rewrite E in E0. injection E0 as <-.
  destruct (threshold cs (s_w s) P Fl V J Rg) as (Lam & _ & H). exists Lam. intros la tol t e Hl It. destruct (H lin (with_tol (with_lambda s la) tol) t e X (skel_refl _) (fun _ => eq_refl) V Hl It) as [A B]. split; auto. destruct B as [B|B]; [left; exact B|right]. apply (balanced_stationary QUADRATIC cs); auto. discriminate.
Qed.
Print Assumptions C90_progress.

(** *** How often it improves: every accepted pass lowers chi2 by the tolerance at least *)
Theorem C90_accepted : forall lin rob cs lambda tol k s t n, typed [] cs -> pycalls lin rob (solver_new world_new) cs = Some s ->
  optimize_levenberg_marquardt lin k (with_tol (with_lambda s lambda) tol) = Some (t, n) ->
  exists es u, iters lin es u t /\ s_w u = s_w s /\ (length es <= Nat.max 1 k)%nat /\ INR (improvements es) * tol <= chi2_of (s_w s) - chi2_of (s_w t).
Proof.
  intros lin rob cs la tol k s t n T E O. destruct (session_inv lin rob cs T) as (s0 & E0 & V & _). rewrite E in E0. injection E0 as <-.
  assert (It : forall es u, iters lin es u t -> valid_factors (s_w u) -> wrap_ok (s_w u) -> s_tol u = tol -> INR (improvements es) * tol <= chi2_of (s_w u) - chi2_of (s_w t)).
  { clear O. intros es u H. induction H as [u|u u1 u2 e es I _ IH]; intros Va Wo Tl; [cbn; lra|]. destruct (lm_iter_chi2 lin u u1 e Va Wo I) as (Le & Wo1 & _ & _ & Ac). destruct (lm_iter_frame _ _ _ _ I) as (K & _ & T1).
    assert (Va1 : valid_factors (s_w u1)) by (intros l Il; rewrite (sk_graph _ _ K) in Il; rewrite (sk_flen _ _ K); apply Va, Il). specialize (IH Va1 Wo1 ltac:(congruence)).
    unfold improvements in *. cbn [filter]. destruct e; try lra. cbn [length]. rewrite S_INR. specialize (Ac eq_refl). rewrite Tl in Ac. lra. }
  destruct (lm_loop_spec lin k (S k) 0 _ t n (or_intror eq_refl) O) as (es & e & I & _ & Hl & _). exists (es ++ [e]), (with_lambda (with_tol (with_lambda s la) tol) (1 / 100000)). split; auto. split; [reflexivity|]. split; [rewrite app_length; cbn in *; lia|].
  apply (It _ _ I); [intros l Il; apply (wf_factors _ (gd_wf _ (iv_good _ _ _ V)) l Il)|apply (tracks_wrap _ _ _ (iv_tracks _ _ _ V))|reflexivity].
Qed.
Print Assumptions C90_accepted.

(** *** A tolerance of zero or less never makes it stop *)
Theorem C90_tolerance : forall lin rob cs lambda tol k s t n, typed [] cs -> pycalls lin rob (solver_new world_new) cs = Some s -> tol <= 0 ->
  optimize_levenberg_marquardt lin k (with_tol (with_lambda s lambda) tol) = Some (t, n) -> n = 0%nat.
Proof.
  intros lin rob cs la tol k s t n T E Ht O. destruct (session_inv lin rob cs T) as (s0 & E0 & V & _). rewrite E in E0. injection E0 as <-.
  destruct (lm_loop_spec lin k (S k) 0 _ t n (or_intror eq_refl) O) as (es & e & I & _ & _ & [[-> _]|(_ & -> & _)]); [exfalso|reflexivity].
  assert (It : forall es u, iters lin es u t -> valid_factors (s_w u) -> wrap_ok (s_w u) -> s_tol u = tol -> ~ In Converged es).
  { clear I es O. intros es u H. induction H as [u|u u1 u2 e es I _ IH]; intros Va Wo Tl; [intros []|]. destruct (lm_iter_chi2 lin u u1 e Va Wo I) as (Le & Wo1 & _ & Cv & _). destruct (lm_iter_frame _ _ _ _ I) as (K & _ & T1).
    assert (Va1 : valid_factors (s_w u1)) by (intros l Il; rewrite (sk_graph _ _ K) in Il; rewrite (sk_flen _ _ K); apply Va, Il). specialize (IH Va1 Wo1 ltac:(congruence)). intros [->|Q]; [|auto]. specialize (Cv eq_refl). rewrite Tl in Cv. lra. }
  apply (It _ _ I); [intros l Il; apply (wf_factors _ (gd_wf _ (iv_good _ _ _ V)) l Il)|apply (tracks_wrap _ _ _ (iv_tracks _ _ _ V))|reflexivity|apply in_or_app; right; left; reflexivity].
Qed.
Print Assumptions C90_tolerance.

(** *** With a robust function it need not end: the pose of C89 between two priors rejects every pass *)
Lemma tugged_rejects lin s t e : exact lin -> inv CAUCHY tugged (s_w s) -> state_of (s_w s) 0 = P2 (mkV3 0 0 0) -> 0 < s_lambda s -> lm_iter lin s = Some (t, e) -> e = Rejected.
Proof.
  intros X V S0 La It. destruct tugged_ok as (T & P & _). assert (NR : CAUCHY <> RANSAC) by discriminate. destruct (lm_node lin CAUCHY tugged s t e X NR P V La It) as (d & w3 & Ed & V3 & _ & _ & U3 & Ee & _).
  set (w := s_w s) in *. destruct (dir_vector CAUCHY tugged w (fun _ k => match k with O => 1 | _ => 0 end) V) as [y Y0]. { intros [|[|i]] v j Ei; discriminate. }
  assert (Y : forall j, (j < 3)%nat -> inc_of w y 0 j = match j with O => 1 | _ => 0 end) by (intros j Hj; apply Y0; [cbn; lia|rewrite S0; exact Hj]).
  assert (J : forall a y i, (i < 3)%nat -> f_jd (state_of w) (inc_of w y) (c_pose2d (mkV3 a 0 0)) [0%nat] i = inc_of w y 0 i) by (intros a z i Hi; apply (jd_pose2d _ _ _ _ _ _ S0 Hi)).
  assert (C2 : f_c (state_of w) (c_pose2d (mkV3 2 0 0), [0%nat], id3) = 2) by (transitivity (call_chi2 (state_of w) (CPose2d (mkV3 2 0 0) 0 id3)); [reflexivity|]; rewrite (proj1 (prior_chi2 _ _ _ S0)); cbn; rewrite wrap_angle_zero; unfold Rsqr; field).
  assert (C1 : f_c (state_of w) (c_pose2d (mkV3 (-1) 0 0), [0%nat], twice) = 1) by (transitivity (call_chi2 (state_of w) (CPose2d (mkV3 (-1) 0 0) 0 twice)); [reflexivity|]; rewrite (proj2 (prior_chi2 _ _ _ S0)); cbn; rewrite wrap_angle_zero; unfold Rsqr; field).
  set (a := inc_of w d 0 0%nat). assert (Ea : (4 / 3 + s_lambda s) * a = 1 / 3).
  { specialize (Ed y). rewrite (act_dot CAUCHY tugged w V), (lone_active CAUCHY tugged w STANDARD (P2 (mkV3 0 0 0)) V) in Ed by (auto; discriminate). rewrite lsum_cons, lsum_nil, S0 in Ed. cbn [nval_dim sumn] in Ed. rewrite !Y in Ed by lia.
    rewrite (facts_form CAUCHY tugged w V P NR), (facts_rhs CAUCHY tugged w V P NR), !lift_facts in Ed. unfold tugged in Ed. rewrite !lsum_cons, !lsum_nil in Ed. unfold lift, call_factor in Ed. cbn [pycall_op] in Ed. unfold f_f, f_g, f_w in Ed. rewrite C1, C2, !cauchy_weight in Ed by lra.
    change (fc_dim (c_pose2d (mkV3 2 0 0))) with 3%nat in Ed. change (fc_dim (c_pose2d (mkV3 (-1) 0 0))) with 3%nat in Ed. cbn [map] in Ed. rewrite S0, !quad_id3, !quad_twice, !J in Ed by lia. destruct (prior_res 2 (mkV3 0 0 0)) as (R0 & R1 & R2). destruct (prior_res (-1) (mkV3 0 0 0)) as (R0' & R1' & R2'). rewrite R0, R1, R2, R0', R1', R2' in Ed. cbn [vx vy vz] in Ed. rewrite wrap_angle_zero, !Y in Ed by lia. fold a in Ed. lra. }
  assert (Na : a <> 0) by (intros Q; rewrite Q in Ea; lra). assert (E0 : nth_error (nodes_of tugged) 0 = Some (STANDARD, P2 (mkV3 0 0 0))) by reflexivity. specialize (U3 0%nat _ _ E0). rewrite S0 in U3. cbn [val_update] in U3. set (x := wrap3 _) in U3.
  assert (Ex : vx x = - a) by (unfold x, wrap3, v3add, dx3; cbn; fold a; ring).
  assert (C0 : chi2_of w = 3) by (rewrite (tugged_chi2 CAUCHY _ _ V S0); cbn; rewrite wrap_angle_zero; unfold Rsqr; field). pose proof (tugged_chi2 CAUCHY _ _ V3 U3) as C3. rewrite Ex in C3.
  pose proof (Rle_0_sqr (vy x)). pose proof (Rle_0_sqr (wrap_angle (vz x))). assert (0 < Rsqr (- a)) by (apply Rsqr_pos_lt; lra).
  rewrite Ee, C0. unfold lm_decide, Rltb. destruct (Rlt_dec _ 0); [reflexivity|exfalso; lra].
Qed.
Lemma tugged_right st : kind_of (st 0%nat) = KP2 -> lsum tugged (call_chi2 st) <= 3 -> jacobians_right tugged st.
Proof.
  intros K L. destruct (st 0%nat) as [x| | | |] eqn:S0; try discriminate. unfold tugged in L. rewrite !lsum_cons, lsum_nil in L. rewrite (proj1 (prior_chi2 _ 2 x S0)), (proj2 (prior_chi2 _ (-1) x S0)) in L. unfold call_chi2 at 1, call_factor in L. cbn [pycall_op] in L.
  assert (W : wrap_angle (vz x - 0) <> - PI).
  { rewrite Rminus_0_r. intros W. rewrite W in L. pose proof (Rle_0_sqr (vy x)). pose proof (Rle_0_sqr (vx x - 2)). pose proof (Rle_0_sqr (vx x - -1)). assert (3 < PI) by (pose proof PI2_3_2; lra). assert (9 < Rsqr (- PI)) by (unfold Rsqr; nra). lra. }
  intros c [<-|[<-|[<-|[]]]] N; [destruct (N eq_refl)| |]; unfold jacobian_right, call_factor; cbn [pycall_op map]; rewrite S0; apply pose2d_jac; exact W.
Qed.
Lemma tugged_below st : st 0%nat = P2 (mkV3 0 0 0) -> jacobians_right_below tugged st.
Proof.
  intros S0 st' R L. destruct (R 0%nat STANDARD _ eq_refl) as [K _]. rewrite S0 in K. apply tugged_right; auto. eapply Rle_trans; [exact L|]. unfold tugged. rewrite !lsum_cons, lsum_nil, (proj1 (prior_chi2 _ _ _ S0)), (proj2 (prior_chi2 _ _ _ S0)). unfold call_chi2 at 1, call_factor. cbn [pycall_op vx vy vz]. rewrite wrap_angle_zero. unfold Rsqr. lra.
Qed.
Lemma tugged_flat : flat_nodes tugged.
Proof. intros [|[|i]] m v E; try discriminate. injection E as <- <-. intros _. left. reflexivity. Qed.
Lemma tugged_never lin k : exact lin -> forall fuel iter s t j, inv CAUCHY tugged (s_w s) -> state_of (s_w s) 0 = P2 (mkV3 0 0 0) -> 0 < s_lambda s -> lm_loop lin fuel iter k s = Some (t, j) -> j = 0%nat.
Proof.
  intros X. induction fuel as [|fuel IH]; intros iter s t j V S0 La E; [discriminate|]. cbn [lm_loop] in E. destruct (lm_iter lin s) as [[s1 e]|] eqn:I; [|discriminate]. destruct (tugged_iter lin CAUCHY s s1 e X ltac:(discriminate) V S0 La I) as (V1 & S1 & L1).
  pose proof (tugged_rejects lin s s1 e X V S0 La I) as Rj. subst e. destruct (S iter <? k)%nat; [eapply IH; eauto|]. injection E as <- <-. reflexivity.
Qed.
Theorem C90_robust_refuted : exists cs, typed [] cs /\ Forall call_info cs /\ flat_nodes cs /\ forall lin, exact lin -> exists s, pycalls lin CAUCHY (solver_new world_new) cs = Some s /\ jacobians_right_below cs (state_of (s_w s)) /\ rigid_states (state_of (s_w s)) /\
  forall lambda tol k, exists t, optimize_levenberg_marquardt lin k (with_tol (with_lambda s lambda) tol) = Some (t, 0%nat) /\ state_of (s_w t) 0 = state_of (s_w s) 0.
Proof.
  exists tugged. destruct tugged_ok as (T & P & _). split; auto. split; auto. split; [exact tugged_flat|]. intros lin X. destruct (tugged_run lin CAUCHY) as (s & E & Si). pose proof (Si 0%nat) as S0. destruct (session_inv lin CAUCHY _ T) as (s0 & E0 & V & _). rewrite E in E0. injection E0 as <-.
  exists s. split; auto. split; [apply tugged_below; auto|]. split; [intros i T0 Ei; rewrite Si in Ei; discriminate|]. intros la tol k.
  destruct (C37_total lin k (with_tol (with_lambda s la) tol) (gd_wf _ (iv_good _ _ _ V))) as (t & j & O). exists t. rewrite O. unfold optimize_levenberg_marquardt in O.
  assert (j = 0%nat) as -> by (eapply (tugged_never lin k X); [| | |exact O]; cbn; auto; lra). split; auto. rewrite S0. eapply (tugged_loop lin CAUCHY k X); [discriminate| | | |exact O]; cbn; auto. lra.
Qed.
Print Assumptions C90_robust_refuted.

(** *** Nor with 3D poses: one lying half a turn away rejects every pass (C87), though chi2 can be lowered *)
Lemma blocked_never lin k : exact lin -> forall fuel iter s t j, inv QUADRATIC blocked_calls (s_w s) -> state_of (s_w s) 0 = P3 lying -> state_of (s_w s) 1 = P2 (mkV3 1 0 0) -> 0 < s_lambda s -> lm_loop lin fuel iter k s = Some (t, j) -> j = 0%nat /\ state_of (s_w t) 1 = P2 (mkV3 1 0 0).
Proof.
  intros X. induction fuel as [|fuel IH]; intros iter s t j V S0 S1 La E; [discriminate|]. cbn [lm_loop] in E. destruct (lm_iter lin s) as [[s1 e]|] eqn:I; [|discriminate]. destruct (blocked_iter lin QUADRATIC s s1 e X ltac:(discriminate) V S0 S1 La I) as (-> & V1 & A & B & C).
  destruct (S iter <? k)%nat; [eapply IH; eauto|]. injection E as <- <-. auto.
Qed.
Theorem C90_3d_refuted : exists cs, typed [] cs /\ Forall call_info cs /\ (forall i, (i < length (nodes_of cs))%nat -> held cs i) /\ forall lin, exact lin -> exists s, pycalls lin QUADRATIC (solver_new world_new) cs = Some s /\ rigid_states (state_of (s_w s)) /\
  (exists st, rearranged cs (state_of (s_w s)) st /\ lsum cs (call_chi2 st) < chi2_of (s_w s)) /\
  forall lambda tol k, exists t, optimize_levenberg_marquardt lin k (with_tol (with_lambda s lambda) tol) = Some (t, 0%nat) /\ state_of (s_w t) 1 = state_of (s_w s) 1.
Proof.
  exists blocked_calls. assert (T : typed [] blocked_calls) by (cbn; repeat split; auto; discriminate). split; [exact T|]. split; [exact blocked_infos|].
  split. { intros [|[|i]] Hi; [eapply held_pose3d; [right; left; reflexivity|apply id_positive]|eapply held_pose2d; [do 3 right; left; reflexivity|apply id_positive]|cbn in Hi; lia]. }
  intros lin X. destruct (session_inv lin QUADRATIC blocked_calls T) as (s & E & V & _).
  assert (B : state_of (s_w s) 0 = P3 lying /\ forall i, state_of (s_w s) (S i) = match i with O => P2 (mkV3 1 0 0) | _ => P2 v3zero end) by (clear - E; unfold blocked_calls in E; generalize dependent lying; intros A E; cbv -[id3 IZR lvec res_pose2d jac_pose2d res_pose3d jac_pose3d l3 l6 lmat R1 R0] in E; injection E as <-; split; [reflexivity|intros [|[|i]]; reflexivity]).
  destruct B as [B0 B1]. exists s. split; auto. split. { intros [|[|i]] T0 Ei; [rewrite B0 in Ei; injection Ei as <-; exact lying_rigid|rewrite B1 in Ei; discriminate|rewrite B1 in Ei; discriminate]. }
  split.
  - exists (fun i => match i with O => P3 lying | _ => P2 (mkV3 0 0 0) end). split.
    + intros [|[|i]] m v Ei; [rewrite B0|rewrite (B1 0%nat)|destruct i; discriminate]; injection Ei as <- _; split; auto; discriminate.
    + rewrite (tracks_chi2 _ _ _ (iv_tracks _ _ _ V)). unfold blocked_calls. rewrite !lsum_cons, !lsum_nil. unfold call_chi2, call_factor. cbn [pycall_op map]. rewrite B0, (B1 0%nat). change (fc_dim (c_pose2d (mkV3 0 0 0))) with 3%nat. rewrite !quad_id3.
      destruct (prior_res 0 (mkV3 0 0 0)) as (R0 & R1 & R2). destruct (prior_res 0 (mkV3 1 0 0)) as (R0' & R1' & R2'). rewrite R0, R1, R2, R0', R1', R2'. cbn [vx vy vz]. rewrite wrap_angle_zero. generalize (quad (fc_dim (c_pose3d lying)) id3 (fc_res (c_pose3d lying) [P3 lying]) (fc_res (c_pose3d lying) [P3 lying])). intros q. lra.
  - intros la tol k. destruct (C37_total lin k (with_tol (with_lambda s la) tol) (gd_wf _ (iv_good _ _ _ V))) as (t & j & O). exists t. rewrite O. unfold optimize_levenberg_marquardt in O.
    assert (La : 0 < 1 / 100000) by lra. destruct (blocked_never lin k X (S k) 0%nat (with_lambda (with_tol (with_lambda s la) tol) (1 / 100000)) t j V B0 (B1 0%nat) La O) as [-> S1]. rewrite (B1 0%nat). auto.
Qed.
Print Assumptions C90_3d_refuted.

(** *** non-vacuity *)
Example C90_ex_converges : exists lin s, exact lin /\ typed [] tugged /\ Forall call_info tugged /\ flat_nodes tugged /\ pycalls lin QUADRATIC (solver_new world_new) tugged = Some s /\
  rigid_states (state_of (s_w s)) /\ jacobians_right_below tugged (state_of (s_w s)) /\ 0 < 1 / 100.
Proof.
  destruct tugged_ok as (T & P & _). destruct (tugged_run gauss QUADRATIC) as (s & E & Si). exists gauss, s. split; [exact gauss_exact|]. split; auto. split; auto. split; [exact tugged_flat|]. split; auto.
  split; [intros i T0 Ei; rewrite Si in Ei; discriminate|]. split; [apply tugged_below, Si|lra].
Qed.
Example C90_ex_progress : exists lin s, exact lin /\ typed [] pulled /\ Forall call_info pulled /\ flat_nodes pulled /\ pycalls lin QUADRATIC (solver_new world_new) pulled = Some s /\
  rigid_states (state_of (s_w s)) /\ jacobians_right pulled (state_of (s_w s)) /\ ~ balanced QUADRATIC pulled (state_of (s_w s)).
Proof.
  assert (T : typed [] pulled) by (cbn; repeat split; auto; discriminate). assert (E : exists s, pycalls gauss QUADRATIC (solver_new world_new) pulled = Some s /\ forall i, state_of (s_w s) i = P2 (mkV3 0 0 0)) by (eexists; split; [cbv -[id3 twice IZR res_pose2d jac_pose2d lvec lmat l3 R0 R1]; reflexivity|intros [|[|i]]; reflexivity]).
  destruct E as (s & E & Si). exists gauss, s. split; [exact gauss_exact|]. split; auto. split; [repeat (apply Forall_cons; [first [exact I | exact (id3_proper _) | exact (twice_proper _)]|]); apply Forall_nil|].
  split; [intros [|[|i]] m v Ei; try discriminate; injection Ei as <- <-; intros _; left; reflexivity|]. split; auto. split; [intros i T0 Ei; rewrite Si in Ei; discriminate|]. pose proof (Si 0%nat) as S0. split.
  - intros c [<-|[<-|[<-|[]]]] N; [destruct (N eq_refl)| |]; unfold jacobian_right, call_factor; cbn [pycall_op map]; rewrite S0; apply pose2d_jac; cbn [vz]; rewrite Rminus_0_r, wrap_angle_zero; pose proof PI_RGT_0; lra.
  - intros B. specialize (B (fun _ k => match k with O => 1 | _ => 0 end)). assert (A : forall i v k, nth_error (nodes_of pulled) i = Some (ANCHOR, v) -> (match k with O => 1 | _ => 0 end) = 0) by (intros [|[|i]] v k Ei; discriminate). specialize (B A). unfold pulled in B. rewrite !lsum_cons, lsum_nil in B.
    unfold pull, call_factor in B. cbn [pycall_op map] in B. change (fc_dim (c_pose2d (mkV3 1 0 0))) with 3%nat in B. change (fc_dim (c_pose2d (mkV3 (-1) 0 0))) with 3%nat in B. rewrite !S0, quad_id3, quad_twice in B. destruct (prior_res 1 (mkV3 0 0 0)) as (R0 & R1 & R2). destruct (prior_res (-1) (mkV3 0 0 0)) as (R0' & R1' & R2'). rewrite R0, R1, R2, R0', R1', R2' in B. cbn [vx vy vz] in B. rewrite wrap_angle_zero in B. cbn in B. lra.
Qed.
Example C90_ex_accepted : exists lin s t n, typed [] tugged /\ pycalls lin HUBER (solver_new world_new) tugged = Some s /\ -1 <= 0 /\
  optimize_levenberg_marquardt lin 7 (with_tol (with_lambda s 0) (-1)) = Some (t, n).
Proof.
  destruct tugged_ok as (T & _). destruct (session_inv gauss HUBER _ T) as (s & E & V & _). destruct (C37_total gauss 7 (with_tol (with_lambda s 0) (-1)) (gd_wf _ (iv_good _ _ _ V))) as (t & n & O).
  exists gauss, s, t, n. split; auto. split; auto. split; [lra|exact O].
Qed.
