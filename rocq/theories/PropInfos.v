(** C88: what informations mean. *)
Require Import Reals List Arith Lia Lra Bool Permutation.
From Verif Require Import Lin LinFacts SpecGeom SO3 SE3 Angle AngleProofs Nodes Robust Graph Sums Solve SpecSolve SolveIndex SolveFrame SolveSums SolveBuild SolveProofs Session SessionProofs FrameFactors.
From Verif Require Import Factors SpecFactors SpecFrame Gauss FrameSolve SpecSolvable SolvableSession FactorsSession PropFrame PropSolvable SpecMapping MappingSession PropMapping LMMapping SpecReorder Reorder ReorderSolve PropReorder SpecFixed Fixed SpecTree Tree SpecParts Parts PropParts SpecInfos Infos.
Import ListNotations.
Local Open Scope R_scope.

(** *** Measurements without information are as good as absent, for both methods and
    any robust function *)
Theorem C88_ignored : forall lin rob p cs cs' others m k lambda tol s s', exact lin -> rob <> RANSAC -> typed [] cs -> typed [] cs' -> Forall call_info cs -> Forall call_info cs' ->
  renumbered p cs cs' -> Forall (order_kept p) cs -> Forall uninformed others -> Permutation (map (rename p) (flat_map measured cs) ++ others) (flat_map measured cs') ->
  (m = GN -> Forall solid_call cs /\ forall i, (i < length (nodes_of cs))%nat -> held cs i) ->
  pycalls lin rob (solver_new world_new) cs = Some s -> pycalls lin rob (solver_new world_new) cs' = Some s' ->
  (forall i, (i < length (nodes_of cs))%nat -> state_of (s_w s') (p i) = state_of (s_w s) i) ->
  chi2_of (s_w s') = chi2_of (s_w s) /\ exists t t', solve lin m k lambda tol s = Some t /\ solve lin m k lambda tol s' = Some t' /\
  (forall i, (i < length (nodes_of cs))%nat -> state_of (s_w t') (p i) = state_of (s_w t) i) /\ chi2_of (s_w t') = chi2_of (s_w t).
Proof. intros lin rob p cs cs' o m k la tol s s' X NR T T' P P' Rn O U Pe Hm E E' St. apply (solves_alike lin rob p cs cs'); auto. apply (ignored_costs rob _ _ o U Pe). Qed.
Print Assumptions C88_ignored.

(** *** Without a robust function, all informations times the same factor give the same
    Gauss-Newton steps, and that factor times chi2 *)
Theorem C88_scale : forall lin a cs k lambda tol s s', exact lin -> 0 < a -> typed [] cs -> Forall call_info cs -> Forall solid_call cs -> (forall i, (i < length (nodes_of cs))%nat -> held cs i) ->
  pycalls lin QUADRATIC (solver_new world_new) cs = Some s -> pycalls lin QUADRATIC (solver_new world_new) (map (rescale a) cs) = Some s' ->
  (forall i, (i < length (nodes_of cs))%nat -> state_of (s_w s') i = state_of (s_w s) i) ->
  chi2_of (s_w s') = a * chi2_of (s_w s) /\ exists t t', solve lin GN k lambda tol s = Some t /\ solve lin GN k lambda tol s' = Some t' /\
  (forall i, (i < length (nodes_of cs))%nat -> state_of (s_w t') i = state_of (s_w t) i) /\ chi2_of (s_w t') = a * chi2_of (s_w t).
Proof.
  intros lin a cs k la tol s s' X Ha T P So Hd E E' St. destruct (session_inv lin QUADRATIC cs T) as (s0 & E0 & V & Fi). rewrite E in E0. injection E0 as <-. destruct (session_inv lin QUADRATIC _ (rescale_typed a cs [] T)) as (s0 & E0 & V' & _). rewrite E' in E0. injection E0 as <-.
  split; [apply (scaled_chi2 a cs); auto|]. destruct (solve_total lin GN k la tol s (gd_wf _ (iv_good _ _ _ V))) as [t Et]. destruct (solve_total lin GN k la tol s' (gd_wf _ (iv_good _ _ _ V'))) as [t' Et']. exists t, t'. split; auto. split; auto.
  assert (H : forall i, (i < length (nodes_of cs))%nat -> state_of (s_w t') i = state_of (s_w t) i) by (apply (scaled_solved lin a cs k la tol s s' t t'); auto; apply (held_one QUADRATIC cs); auto; discriminate).
  split; auto. destruct (solve_frame _ _ _ _ _ _ _ Et) as (K & _ & KK). destruct (solve_frame _ _ _ _ _ _ _ Et') as (K' & _ & KK'). apply (scaled_chi2 a cs); auto; eapply inv_skel; eauto.
Qed.
Print Assumptions C88_scale.

(** *** Examples: a landmark seen from an anchored pose; a second sighting without information *)
Definition none : nat -> nat -> R := fun _ _ => 0.
Definition seen_calls : list pycall := [CNode ANCHOR (P2 (mkV3 0 0 0)); CNode STANDARD (L2 2 1); CLandmark2d 3 1 0 1 id3 false].
Definition doubted_calls : list pycall := [CNode ANCHOR (P2 (mkV3 0 0 0)); CNode STANDARD (L2 2 1); CLandmark2d 5 2 0 1 none false; CLandmark2d 3 1 0 1 id3 false].
Ltac ran := eexists; split; [cbv -[id3 none IZR res_landmark2d jac_landmark2d res_pose2d jac_pose2d lvec lmat l3 R0 R1 Rmult]; reflexivity|intros [|[|i]] Hi; [reflexivity|reflexivity|cbn in Hi; lia]].
Lemma seen_run lin rob : exists s, pycalls lin rob (solver_new world_new) seen_calls = Some s /\ forall i, (i < 2)%nat -> state_of (s_w s) i = nth i [P2 (mkV3 0 0 0); L2 2 1] (P2 v3zero).
Proof. ran. Qed.
Lemma seen_ok : typed [] seen_calls /\ Forall call_info seen_calls /\ Forall solid_call seen_calls /\ forall i, (i < length (nodes_of seen_calls))%nat -> held seen_calls i.
Proof.
  split; [cbn; repeat split; auto; discriminate|]. split; [repeat (apply Forall_cons; [first [exact I | exact (id3_proper _)]|]); apply Forall_nil|]. split; [repeat (apply Forall_cons; [exact I|]); apply Forall_nil|].
  assert (H0 : held seen_calls 0) by (eapply held_anchor; reflexivity). intros [|[|i]] Hi; [exact H0| |cbn in Hi; lia]. eapply held_landmark2d; [do 2 right; left; reflexivity|apply id_positive|exact H0].
Qed.
Lemma none_proper n : proper n none.
Proof. split; [intros i j _ _; reflexivity|]. intros x. rewrite quad_none by reflexivity. lra. Qed.
Example C88_ex_ignored : forall lin rob m, exact lin -> rob <> RANSAC -> exists s s' t t', pycalls lin rob (solver_new world_new) seen_calls = Some s /\ pycalls lin rob (solver_new world_new) doubted_calls = Some s' /\
  solve lin m 10 0 0 s = Some t /\ solve lin m 10 0 0 s' = Some t' /\ state_of (s_w t') 1 = state_of (s_w t) 1.
Proof.
  intros lin rob m X NR. destruct seen_ok as (T & P & So & Hd). destruct (seen_run lin rob) as (s & E & S0).
  assert (R' : exists s', pycalls lin rob (solver_new world_new) doubted_calls = Some s' /\ forall i, (i < 2)%nat -> state_of (s_w s') i = nth i [P2 (mkV3 0 0 0); L2 2 1] (P2 v3zero)) by ran. destruct R' as (s' & E' & S0').
  destruct (C88_ignored lin rob (fun i => i) seen_calls doubted_calls [CLandmark2d 5 2 0 1 none false] m 10 0 0 s s' X NR T) as (_ & t & t' & Et & Et' & St & _); auto.
  - cbn; repeat split; auto; discriminate.
  - repeat (apply Forall_cons; [first [exact I | exact (id3_proper _) | exact (none_proper _)]|]); apply Forall_nil.
  - constructor; [reflexivity|intros i mo v Ei; exists v; exact Ei|auto].
  - repeat (apply Forall_cons; [exact I|]); apply Forall_nil.
  - constructor; [intros i j; reflexivity|constructor].
  - cbn. apply perm_swap.
  - intros i Hi. rewrite S0, S0' by exact Hi. reflexivity.
  - exists s, s', t, t'. split; [exact E|]. split; [exact E'|]. split; [exact Et|]. split; [exact Et'|]. apply (St 1%nat). cbn. lia.
Qed.
Example C88_ex_scale : forall lin, exact lin -> exists s s' t t', pycalls lin QUADRATIC (solver_new world_new) seen_calls = Some s /\ pycalls lin QUADRATIC (solver_new world_new) (map (rescale 7) seen_calls) = Some s' /\
  solve lin GN 1 0 0 s = Some t /\ solve lin GN 1 0 0 s' = Some t' /\ state_of (s_w t') 1 = state_of (s_w t) 1 /\ chi2_of (s_w t') = 7 * chi2_of (s_w t).
Proof.
  intros lin X. destruct seen_ok as (T & P & So & Hd). destruct (seen_run lin QUADRATIC) as (s & E & S0).
  assert (R' : exists s', pycalls lin QUADRATIC (solver_new world_new) (map (rescale 7) seen_calls) = Some s' /\ forall i, (i < 2)%nat -> state_of (s_w s') i = nth i [P2 (mkV3 0 0 0); L2 2 1] (P2 v3zero)) by ran. destruct R' as (s' & E' & S0').
  destruct (C88_scale lin 7 seen_calls 1 0 0 s s' X ltac:(lra) T P So Hd E E') as (_ & t & t' & Et & Et' & St & C).
  - intros i Hi. rewrite S0, S0' by exact Hi. reflexivity.
  - exists s, s', t, t'. split; [exact E|]. split; [exact E'|]. split; [exact Et|]. split; [exact Et'|]. split; [|exact C]. apply (St 1%nat). cbn. lia.
Qed.

(** *** Not so with a robust function, which compares residuals with a fixed threshold *)
Lemma prior_cauchy st D x W w : st 0%nat = P2 (mkV3 0 0 0) -> 0 < w -> (forall u v, quad 3 W u v = w * (u 0%nat * v 0%nat + u 1%nat * v 1%nat + u 2%nat * v 2%nat)) ->
  f_g CAUCHY st (fun _ k => if Nat.eqb k 0 then 1 else 0) (c_pose2d (mkV3 x 0 0), [0%nat], W) = - (w * x) / (1 + w * (x * x) / 2) /\
  f_f CAUCHY st (fun _ k => if Nat.eqb k 0 then 1 else 0) D (c_pose2d (mkV3 x 0 0), [0%nat], W) = w * D 0%nat 0%nat / (1 + w * (x * x) / 2).
Proof.
  intros S0 Hw Q.
  assert (Rs : fc_res (c_pose2d (mkV3 x 0 0)) [P2 (mkV3 0 0 0)] 0 = - x /\ fc_res (c_pose2d (mkV3 x 0 0)) [P2 (mkV3 0 0 0)] 1 = 0 /\ fc_res (c_pose2d (mkV3 x 0 0)) [P2 (mkV3 0 0 0)] 2 = 0).
  { cbn -[res_pose2d]. unfold res_pose2d, wrap3, v3sub. cbn. replace (0 - 0) with 0 by ring. rewrite wrap_angle_zero. repeat split; ring. }
  destruct Rs as (R0 & R1 & R2).
  assert (C : f_c st (c_pose2d (mkV3 x 0 0), [0%nat], W) = w * (x * x) / 2) by (unfold f_c; cbn [map]; change (fc_dim (c_pose2d (mkV3 x 0 0))) with 3%nat; rewrite S0, Q, R0, R1, R2; field).
  assert (Pc : 0 <= w * (x * x) / 2) by nra.
  unfold f_g, f_f, f_w. rewrite C, (cauchy_weight _ Pc). cbn [map]. change (fc_dim (c_pose2d (mkV3 x 0 0))) with 3%nat. rewrite !Q, S0, R0, R1, R2, !(jd_pose2d _ _ _ _ _ _ S0) by lia. cbn [Nat.eqb]. split; field; nra.
Qed.
Lemma quad_twice u v : quad 3 twice u v = 2 * (u 0%nat * v 0%nat + u 1%nat * v 1%nat + u 2%nat * v 2%nat).
Proof. unfold quad, twice, id3. cbn. ring. Qed.
Lemma quad_more a W w : (forall u v, quad 3 W u v = w * (u 0%nat * v 0%nat + u 1%nat * v 1%nat + u 2%nat * v 2%nat)) -> forall u v, quad 3 (fun i j => a * W i j) u v = (a * w) * (u 0%nat * v 0%nat + u 1%nat * v 1%nat + u 2%nat * v 2%nat).
Proof. intros H u v. rewrite quad_times, H. ring. Qed.
Theorem C88_scale_robust_refuted : exists rob a cs, rob <> RANSAC /\ 0 < a /\ typed [] cs /\ Forall call_info cs /\ Forall solid_call cs /\ (forall i, (i < length (nodes_of cs))%nat -> held cs i) /\
  forall lin, exact lin -> exists s s' t t', pycalls lin rob (solver_new world_new) cs = Some s /\ pycalls lin rob (solver_new world_new) (map (rescale a) cs) = Some s' /\ state_of (s_w s') 0 = state_of (s_w s) 0 /\
  solve lin GN 1 0 0 s = Some t /\ solve lin GN 1 0 0 s' = Some t' /\ state_of (s_w t') 0 <> state_of (s_w t) 0.
Proof.
  exists CAUCHY, 2, pulled. assert (T : typed [] pulled) by (cbn; repeat split; auto; discriminate). assert (T' : typed [] (map (rescale 2) pulled)) by (apply rescale_typed, T).
  assert (P : Forall call_info pulled) by (repeat (apply Forall_cons; [first [exact I | exact (id3_proper _) | exact (twice_proper _)]|]); apply Forall_nil). assert (P' : Forall call_info (map (rescale 2) pulled)) by (apply rescale_info; [lra|exact P]).
  assert (So : Forall solid_call pulled) by (repeat (apply Forall_cons; [exact I|]); apply Forall_nil). assert (So' : Forall solid_call (map (rescale 2) pulled)) by (repeat (apply Forall_cons; [exact I|]); apply Forall_nil).
  assert (Hd : held pulled 0) by (eapply held_pose2d; [right; left; reflexivity|apply id3_positive]).
  assert (Hd' : held (map (rescale 2) pulled) 0). { eapply held_pose2d; [right; left; reflexivity|]. intros x Z i Hi. rewrite quad_times in Z. apply (id3_positive 3 x); auto. cbn [info_of] in Z. lra. }
  split; [discriminate|]. split; [lra|]. do 3 (split; [assumption|]). split; [intros [|i] Hi; auto; cbn in Hi; lia|].
  intros lin X. assert (Run : exists s, pycalls lin CAUCHY (solver_new world_new) pulled = Some s /\ state_of (s_w s) 0 = P2 (mkV3 0 0 0)) by (eexists; split; [cbv -[id3 twice IZR res_pose2d jac_pose2d lvec lmat l3 R0 R1]; reflexivity|reflexivity]).
  assert (Run' : exists s, pycalls lin CAUCHY (solver_new world_new) (map (rescale 2) pulled) = Some s /\ state_of (s_w s) 0 = P2 (mkV3 0 0 0)) by (eexists; split; [cbv -[id3 twice IZR res_pose2d jac_pose2d lvec lmat l3 R0 R1 Rmult]; reflexivity|reflexivity]).
  destruct Run as (s & E & S0). destruct Run' as (s' & E' & S0'). destruct (session_inv lin CAUCHY _ T) as (s0 & E0 & V & _). rewrite E in E0. injection E0 as <-. destruct (session_inv lin CAUCHY _ T') as (s0 & E0 & V' & _). rewrite E' in E0. injection E0 as <-.
  destruct (solve_total lin GN 1 0 0 s (gd_wf _ (iv_good _ _ _ V))) as [t Et]. destruct (solve_total lin GN 1 0 0 s' (gd_wf _ (iv_good _ _ _ V'))) as [t' Et']. exists s, s', t, t'. do 2 (split; [assumption|]). split; [congruence|]. do 2 (split; [assumption|]).
  destruct (lone_step lin CAUCHY pulled STANDARD (P2 (mkV3 0 0 0)) s t X ltac:(discriminate) T P So eq_refl ltac:(discriminate) Hd E S0 Et) as (D & Q & x & Ex & Vx).
  destruct (lone_step lin CAUCHY (map (rescale 2) pulled) STANDARD (P2 (mkV3 0 0 0)) s' t' X ltac:(discriminate) T' P' So' eq_refl ltac:(discriminate) Hd' E' S0' Et') as (D' & Q' & x' & Ex' & Vx').
  unfold pulled, facts, call_factor, rescale in Q, Q'. cbn [map with_info info_of flat_map pycall_op app] in Q, Q'. repeat rewrite lsum_cons in Q. repeat rewrite lsum_cons in Q'. rewrite !lsum_nil in Q, Q'.
  destruct (prior_cauchy _ D 1 id3 1 S0 ltac:(lra) quad_id3) as (G1 & F1). destruct (prior_cauchy _ D (-1) twice 2 S0 ltac:(lra) quad_twice) as (G2 & F2). rewrite G1, G2, F1, F2 in Q.
  destruct (prior_cauchy _ D' 1 _ (2 * 1) S0' ltac:(lra) (quad_more 2 id3 1 quad_id3)) as (G1' & F1'). destruct (prior_cauchy _ D' (-1) _ (2 * 2) S0' ltac:(lra) (quad_more 2 twice 2 quad_twice)) as (G2' & F2'). rewrite G1', G2', F1', F2' in Q'.
  rewrite Ex, Ex'. intros Eq. injection Eq as Eq. rewrite Eq, Vx in Vx'. lra.
Qed.
Print Assumptions C88_scale_robust_refuted.

(** *** Nor with Levenberg-Marquardt, whose damping starts at 1e-5 whatever the informations *)
Theorem C88_scale_lm_refuted : exists a cs, 0 < a /\ typed [] cs /\ Forall call_info cs /\ Forall solid_call cs /\ (forall i, (i < length (nodes_of cs))%nat -> held cs i) /\
  forall lin lambda tol, exact lin -> exists s s' t t', pycalls lin QUADRATIC (solver_new world_new) cs = Some s /\ pycalls lin QUADRATIC (solver_new world_new) (map (rescale a) cs) = Some s' /\ state_of (s_w s') 0 = state_of (s_w s) 0 /\
  solve lin LM 1 lambda tol s = Some t /\ solve lin LM 1 lambda tol s' = Some t' /\ state_of (s_w t') 0 <> state_of (s_w t) 0.
Proof.
  exists 2, lone_calls. assert (T : typed [] lone_calls) by (cbn; repeat split; auto; discriminate). pose proof (rescale_typed 2 lone_calls [] T) as T'.
  split; [lra|]. split; [exact T|]. split; [repeat (apply Forall_cons; [first [exact I | exact (id3_proper _)]|]); apply Forall_nil|]. split; [repeat (apply Forall_cons; [exact I|]); apply Forall_nil|].
  split. { intros [|i] Hi; [|cbn in Hi; lia]. eapply held_pose2d; [right; left; reflexivity|apply id_positive]. }
  intros lin la tol X. destruct (session_inv lin QUADRATIC lone_calls T) as (s & E & V & _). destruct (session_inv lin QUADRATIC _ T') as (s' & E' & V' & _).
  assert (A : state_of (s_w s) 0 = P2 (mkV3 1 0 0)) by (clear - E; unfold lone_calls in E; cbv -[id3 IZR lvec res_pose2d jac_pose2d l3 lmat R1 R0] in E; injection E as <-; reflexivity).
  assert (A' : state_of (s_w s') 0 = P2 (mkV3 1 0 0)) by (clear - E'; unfold lone_calls in E'; cbv -[id3 IZR lvec res_pose2d jac_pose2d l3 lmat R1 R0 Rmult] in E'; injection E' as <-; reflexivity).
  destruct (solve_total lin LM 1 la tol s (gd_wf _ (iv_good _ _ _ V))) as [t Et]. destruct (solve_total lin LM 1 la tol s' (gd_wf _ (iv_good _ _ _ V'))) as [t' Et']. exists s, s', t, t'. split; auto. split; auto. split; [congruence|]. split; auto. split; auto.
  assert (One : forall a W s t, 0 < a -> proper 3 W -> (forall u v, quad 3 W u v = a * (u 0%nat * v 0%nat + u 1%nat * v 1%nat + u 2%nat * v 2%nat)) -> inv QUADRATIC [CNode STANDARD (P2 (mkV3 1 0 0)); CPose2d (mkV3 0 0 0) 0 W] (s_w s) -> state_of (s_w s) 0 = P2 (mkV3 1 0 0) -> solve lin LM 1 la tol s = Some t ->
    state_of (s_w t) 0 = P2 (mkV3 (1 * (1 / 100000) / (a + 1 / 100000)) 0 0)).
  { clear - X. intros a W s t Ha PW Q V S0 Et. unfold solve in Et. destruct (optimize_levenberg_marquardt lin 1 _) as [[u j]|] eqn:O; [|discriminate]. cbn in Et. injection Et as <-. unfold optimize_levenberg_marquardt in O. cbn [lm_loop] in O.
    set (r := with_lambda _ _) in O. destruct (lm_iter lin r) as [[u1 e]|] eqn:It; [|discriminate].
    destruct (lone_lm lin a W r u1 e 1 X Ha PW Q V S0 ltac:(cbn; lra) It) as (_ & S1 & _). replace u with u1; [exact S1|]. destruct e; cbn in O; injection O; auto. }
  rewrite (One 1 id3 s t Rlt_0_1 (id3_proper 3) quad_id3 V A Et), (One 2 (fun i j => 2 * id3 i j) s' t'); auto; [|lra| |].
  - intros Q. injection Q as Q. lra.
  - destruct (id3_proper 3) as [Sy Ps]. split; [intros i j Hi Hj; rewrite (Sy i j Hi Hj); reflexivity|]. intros x. rewrite quad_times. apply Rmult_le_pos; [lra|apply Ps].
  - intros u v. rewrite (quad_more 2 id3 1 quad_id3). ring.
Qed.
Print Assumptions C88_scale_lm_refuted.
