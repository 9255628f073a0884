(** C87: parts of a graph. *)
Require Import Reals List Arith Lia Lra Bool Permutation.
From Verif Require Import Lin LinFacts SpecGeom SO3 SE3 SO3Exp SO3Misc SE3Alg SE3Ln Angle AngleProofs Nodes Robust Graph Sums Solve SpecSolve SolveIndex SolveFrame SolveSums SolveBuild SolveProofs Session SessionProofs FrameFactors.
From Verif Require Import Factors SpecFactors Factors3D Factors3DLn SpecFrame Frame3Factors Gauss FrameSolve SpecSolvable SolvableSession FactorsSession PropFrame PropSolvable SpecMapping MappingSession PropMapping LMMapping SpecReorder Reorder ReorderSolve PropReorder SpecFixed Fixed PropFixed SpecTree Tree SpecParts Parts.
Import ListNotations.
Local Open Scope R_scope.

(** *** A Gauss-Newton step moves the nodes of a part as if the part were alone *)
Theorem C87_parts : forall lin rob p cs1 cs k lambda tol s1 s, exact lin -> rob <> RANSAC -> typed [] cs1 -> typed [] cs -> Forall call_info cs1 -> Forall call_info cs ->
  Forall solid_call cs -> (forall i, (i < length (nodes_of cs))%nat -> held cs i) -> part_of p cs1 cs -> Forall (order_kept p) cs1 ->
  pycalls lin rob (solver_new world_new) cs1 = Some s1 -> pycalls lin rob (solver_new world_new) cs = Some s ->
  (forall i, (i < length (nodes_of cs1))%nat -> state_of (s_w s) (p i) = state_of (s_w s1) i) ->
  exists t1 t, solve lin GN k lambda tol s1 = Some t1 /\ solve lin GN k lambda tol s = Some t /\ forall i, (i < length (nodes_of cs1))%nat -> state_of (s_w t) (p i) = state_of (s_w t1) i.
Proof.
  intros lin rob p cs1 cs k la tol s1 s X NR T1 T P1 P So Hd Po O E1 E St. destruct (session_inv lin rob cs1 T1) as (s0 & E0 & V1 & _). rewrite E1 in E0. injection E0 as <-. destruct (session_inv lin rob cs T) as (s0 & E0 & V & Fi). rewrite E in E0. injection E0 as <-.
  destruct (solve_total lin GN k la tol s1 (gd_wf _ (iv_good _ _ _ V1))) as [t1 Et1]. destruct (solve_total lin GN k la tol s (gd_wf _ (iv_good _ _ _ V))) as [t Et]. exists t1, t. split; auto. split; auto.
  apply (part_solved lin rob p cs1 cs k la tol s1 s t1 t); auto. apply (held_one rob cs); auto.
Qed.
Print Assumptions C87_parts.

(** *** Example: two parts that share an anchor only *)
Definition whole_calls : list pycall :=
  [CNode ANCHOR (P2 (mkV3 0 0 0)); CNode STANDARD (P2 (mkV3 1 0 0)); CNode STANDARD (L2 2 1); C2Poses2d (mkV3 2 0 0) 0 1 id3 false; CLandmark2d 3 1 0 2 id3 false].
Definition part_calls : list pycall := [CNode ANCHOR (P2 (mkV3 0 0 0)); CNode STANDARD (L2 2 1); CLandmark2d 3 1 0 1 id3 false].
Definition part_id (i : nat) : nat := match i with O => O | S i => S (S i) end.
Example C87_ex_parts : forall lin rob, exact lin -> rob <> RANSAC -> exists s1 s t1 t, pycalls lin rob (solver_new world_new) part_calls = Some s1 /\ pycalls lin rob (solver_new world_new) whole_calls = Some s /\
  solve lin GN 1 0 0 s1 = Some t1 /\ solve lin GN 1 0 0 s = Some t /\ state_of (s_w t) 2 = state_of (s_w t1) 1.
Proof.
  intros lin rob X NR.
  assert (Run1 : exists s, pycalls lin rob (solver_new world_new) part_calls = Some s /\ state_of (s_w s) 0 = P2 (mkV3 0 0 0) /\ state_of (s_w s) 1 = L2 2 1) by (eexists; split; [cbv -[id3 IZR res_landmark2d jac_landmark2d lvec lmat l3 R0 R1]; reflexivity|split; reflexivity]).
  assert (Run : exists s, pycalls lin rob (solver_new world_new) whole_calls = Some s /\ state_of (s_w s) 0 = P2 (mkV3 0 0 0) /\ state_of (s_w s) 2 = L2 2 1) by (eexists; split; [cbv -[id3 IZR res_2poses2d jac_2poses2d res_landmark2d jac_landmark2d lvec lmat l3 R0 R1]; reflexivity|split; reflexivity]).
  destruct Run1 as (s1 & E1 & A0 & A1). destruct Run as (s & E & B0 & B2).
  assert (H : exists t1 t, solve lin GN 1 0 0 s1 = Some t1 /\ solve lin GN 1 0 0 s = Some t /\ forall i, (i < length (nodes_of part_calls))%nat -> state_of (s_w t) (part_id i) = state_of (s_w t1) i).
  { apply (C87_parts lin rob part_id part_calls whole_calls); auto.
    - cbn; repeat split; auto; discriminate.
    - cbn; repeat split; auto; discriminate.
    - repeat (apply Forall_cons; [first [exact I | exact (id3_proper _)]|]); apply Forall_nil.
    - repeat (apply Forall_cons; [first [exact I | exact (id3_proper _)]|]); apply Forall_nil.
    - repeat (apply Forall_cons; [exact I|]); apply Forall_nil.
    - assert (H0 : held whole_calls 0) by (eapply held_anchor; reflexivity). intros [|[|[|i]]] Hi; [exact H0| | |cbn in Hi; lia].
      + eapply held_2poses2d; [do 3 right; left; reflexivity|apply id_positive|exact H0].
      + eapply held_landmark2d; [do 4 right; left; reflexivity|apply id_positive|exact H0].
    - constructor.
      + intros [|[|[|i]]] m v Ei; try discriminate; injection Ei as <- <-; eexists; reflexivity.
      + intros [|i] [|j] Hi Hj Q; try discriminate; auto; injection Q as ->; reflexivity.
      + exists [C2Poses2d (mkV3 2 0 0) 0 1 id3 false]. split; [cbn; apply perm_swap|]. intros c [|i] [<-|[]] Hi I; [eexists; reflexivity|]. cbn in I. destruct I as [I|[I|[]]]; discriminate.
    - repeat (apply Forall_cons; [first [exact I | cbn; lia]|]); apply Forall_nil.
    - intros [|[|i]] Hi; [| |cbn in Hi; lia]; cbn [part_id]; congruence. }
  destruct H as (t1 & t & Et1 & Et & H). exists s1, s, t1, t. do 4 (split; auto). apply (H 1%nat). cbn. lia.
Qed.

(** *** Not so for Levenberg-Marquardt, which keeps or undoes the steps of all parts
    together: a pose that an update cannot leave in place (a half turn, C85) keeps every
    other node where it is, however many iterations are allowed *)
Definition lone_calls : list pycall := [CNode STANDARD (P2 (mkV3 1 0 0)); CPose2d (mkV3 0 0 0) 0 id3].
Definition blocked_calls : list pycall := [CNode STANDARD (P3 lying); CPose3d lying 0 id3; CNode STANDARD (P2 (mkV3 1 0 0)); CPose2d (mkV3 0 0 0) 1 id3].
Lemma blocked_infos : Forall call_info blocked_calls.
Proof. repeat (apply Forall_cons; [first [exact I | exact (id3_proper _)]|]); apply Forall_nil. Qed.
Lemma quad_id3 u v : quad 3 id3 u v = 1 * (u 0%nat * v 0%nat + u 1%nat * v 1%nat + u 2%nat * v 2%nat).
Proof. unfold quad, id3. cbn. ring. Qed.
Lemma blocked_iter lin rob s t e : exact lin -> rob <> RANSAC -> inv rob blocked_calls (s_w s) -> state_of (s_w s) 0 = P3 lying -> state_of (s_w s) 1 = P2 (mkV3 1 0 0) -> 0 < s_lambda s -> lm_iter lin s = Some (t, e) ->
  e = Rejected /\ inv rob blocked_calls (s_w t) /\ state_of (s_w t) 0 = P3 lying /\ state_of (s_w t) 1 = P2 (mkV3 1 0 0) /\ 0 < s_lambda t.
Proof.
  intros X NR V S0 S1 La It. pose proof blocked_infos as P. destruct (lm_node lin rob blocked_calls s t e X NR P V La It) as (d & w3 & Ed & V3 & Vt & Lt & U3 & Ee & Ut).
  assert (E0 : nth_error (nodes_of blocked_calls) 0 = Some (STANDARD, P3 lying)) by reflexivity. assert (E1 : nth_error (nodes_of blocked_calls) 1 = Some (STANDARD, P2 (mkV3 1 0 0))) by reflexivity.
  set (w := s_w s) in *. destruct (dir_vector rob blocked_calls w (fun i k => match i with O => inc_of w d 0 k | _ => 0 end) V) as [y Y]. { intros [|[|[|i]]] v k Ei; discriminate. }
  assert (Y0 : forall k, (k < 6)%nat -> inc_of w y 0 k = inc_of w d 0 k) by (intros k Hk; apply (Y 0%nat); [cbn; lia|rewrite S0; exact Hk]).
  assert (Y1 : forall k, (k < 3)%nat -> inc_of w y 1 k = 0) by (intros k Hk; apply (Y 1%nat); [cbn; lia|rewrite S1; exact Hk]).
  assert (J1 : forall i, f_jd (state_of w) (inc_of w y) (c_pose2d (mkV3 0 0 0)) [1%nat] i = 0) by (intros i; apply still_jd; intros j k [<-|[]] Hk; rewrite S1 in Hk; apply Y1, Hk).
  assert (J0 : forall i, f_jd (state_of w) (inc_of w y) (c_pose3d lying) [0%nat] i = f_jd (state_of w) (inc_of w d) (c_pose3d lying) [0%nat] i) by (intros i; apply jd_same; intros j k [<-|[]] Hk; rewrite S0 in Hk; apply Y0, Hk).
  assert (R0 : forall i, (i < 6)%nat -> fc_res (c_pose3d lying) (map (state_of w) [0%nat]) i = 0) by (cbn [map]; rewrite S0; apply pose3d_zero_eq, lying_rigid).
  assert (Rh : gn_rhs w y = 0).
  { rewrite (facts_rhs rob _ w V P NR), lift_facts. unfold blocked_calls. rewrite !lsum_cons, lsum_nil. unfold lift, call_factor. cbn [pycall_op]. unfold f_g. rewrite (quad_still _ _ (f_jd (state_of w) (inc_of w y) (c_pose2d (mkV3 0 0 0)) [1%nat])) by exact J1.
    change (fc_dim (c_pose3d lying)) with 6%nat. replace (quad 6 id3 _ _) with 0; [ring|]. symmetry. apply sumn_zero. intros i Hi. apply sumn_zero. intros j Hj. rewrite (R0 j Hj). ring. }
  assert (Fo : gn_form w y d = gn_form w y y).
  { rewrite !(facts_form rob _ w V P NR), !lift_facts. unfold blocked_calls. rewrite !lsum_cons, !lsum_nil. unfold lift, call_factor. cbn [pycall_op]. unfold f_f. rewrite !(quad_still _ _ (f_jd (state_of w) (inc_of w y) (c_pose2d (mkV3 0 0 0)) [1%nat])) by exact J1.
    f_equal. f_equal. f_equal. apply quad_ext; auto. }
  assert (Dt : dot (g_stateDim (w_graph w)) y d = 0).
  { specialize (Ed y). rewrite Rh, Fo in Ed. pose proof (form_nonneg rob _ w y NR P V) as F. assert (Dn : 0 <= dot (g_stateDim (w_graph w)) y d); [|nra].
    rewrite (act_dot rob _ w V). apply lsum_nonneg. intros i Ii. apply (act_iff rob _ w V) in Ii. destruct Ii as (m & v & Ei & _). apply sumn_nonneg. intros k Hk.
    destruct i as [|[|[|i]]]; try discriminate; [rewrite S0 in Hk; rewrite (Y0 k Hk); nra|rewrite S1 in Hk; rewrite (Y1 k Hk); lra]. }
  assert (Z : forall k, (k < 6)%nat -> inc_of w d 0 k = 0).
  { rewrite (act_dot rob _ w V) in Dt. assert (I0 : In 0%nat (act_ids w)) by (apply (act_iff rob _ w V); exists STANDARD, (P3 lying); split; [reflexivity|discriminate]).
    assert (N : forall i, In i (act_ids w) -> 0 <= sumn (nval_dim (state_of w i)) (fun k => inc_of w y i k * inc_of w d i k)).
    { intros i Ii. apply (act_iff rob _ w V) in Ii. destruct Ii as (m & v & Ei & _). apply sumn_nonneg. intros k Hk. destruct i as [|[|[|i]]]; try discriminate; [rewrite S0 in Hk; rewrite (Y0 k Hk); nra|rewrite S1 in Hk; rewrite (Y1 k Hk); lra]. }
    pose proof (lsum_zero_all _ _ N Dt 0%nat I0) as Q. cbv beta in Q. rewrite S0 in Q. cbn [nval_dim] in Q. intros k Hk. assert (Q' : sumn 6 (fun k => inc_of w d 0 k * inc_of w d 0 k) = 0) by (rewrite <- Q; apply sumn_ext; intros j Hj; rewrite (Y0 j Hj); reflexivity).
    pose proof (sumn_sq_zero _ _ Q' k Hk). nra. }
  assert (W0 : state_of w3 0 = P3 (se3_of_Rt m3id (mkV3 1 2 3))).
  { rewrite (U3 _ _ _ E0), <- lying_update, S0. apply val_update_ext. intros j Hj. rewrite (Z j Hj). ring. }
  assert (C3 : 19 <= chi2_of w3).
  { rewrite (tracks_chi2 _ _ _ (iv_tracks _ _ _ V3)). pose proof (lying_chi2 (state_of w3) W0) as L. unfold lying_calls in L. unfold blocked_calls. rewrite !lsum_cons, lsum_nil in *. assert (0 <= call_chi2 (state_of w3) (CPose2d (mkV3 0 0 0) 1 id3)); [|unfold call_chi2, call_factor in *; cbn [pycall_op] in *; lra].
    unfold call_chi2, call_factor. cbn [pycall_op]. change (fc_dim (c_pose2d (mkV3 0 0 0))) with 3%nat. rewrite quad_id3. set (r := fc_res _ _). nra. }
  assert (C0 : chi2_of w = 1 / 2).
  { rewrite (tracks_chi2 _ _ _ (iv_tracks _ _ _ V)). unfold blocked_calls. rewrite !lsum_cons, lsum_nil. unfold call_chi2, call_factor. cbn [pycall_op]. change (fc_dim (c_pose2d (mkV3 0 0 0))) with 3%nat. change (fc_dim (c_pose3d lying)) with 6%nat. rewrite quad_id3.
    replace (quad 6 id3 _ _) with 0 by (symmetry; apply sumn_zero; intros i Hi; apply sumn_zero; intros j Hj; rewrite (R0 j Hj); ring). cbn [map]. rewrite S1. cbn -[res_pose2d]. unfold res_pose2d, wrap3, v3sub. cbn. replace (0 - 0) with 0 by ring. rewrite wrap_angle_zero. field. }
  assert (Rj : e = Rejected) by (rewrite Ee, C0; unfold lm_decide, Rltb; destruct (Rlt_dec _ 0); [reflexivity|exfalso; lra]).
  split; auto. split; auto. rewrite (Ut _ _ _ E0), (Ut _ _ _ E1), Rj, S0, S1. split; [reflexivity|]. split; auto. cbn. unfold wrap3. cbn. rewrite wrap_angle_zero. reflexivity.
Qed.
Lemma blocked_iters lin rob es s t : exact lin -> rob <> RANSAC -> iters lin es s t -> inv rob blocked_calls (s_w s) -> state_of (s_w s) 0 = P3 lying -> state_of (s_w s) 1 = P2 (mkV3 1 0 0) -> 0 < s_lambda s ->
  state_of (s_w t) 0 = P3 lying /\ state_of (s_w t) 1 = P2 (mkV3 1 0 0).
Proof.
  intros X NR H. induction H as [s|s s1 s2 e es It _ IH]; intros V S0 S1 La; auto. destruct (blocked_iter lin rob s s1 e X NR V S0 S1 La It) as (_ & V' & A & B & C). auto.
Qed.
Theorem C87_lm_refuted : exists p cs1 cs, typed [] cs1 /\ typed [] cs /\ Forall call_info cs1 /\ Forall call_info cs /\ Forall solid_call cs /\ (forall i, (i < length (nodes_of cs))%nat -> held cs i) /\ part_of p cs1 cs /\ Forall (order_kept p) cs1 /\
  forall lin k lambda tol, exact lin -> exists s1 s t1 t, pycalls lin QUADRATIC (solver_new world_new) cs1 = Some s1 /\ pycalls lin QUADRATIC (solver_new world_new) cs = Some s /\
  (forall i, (i < length (nodes_of cs1))%nat -> state_of (s_w s) (p i) = state_of (s_w s1) i) /\ solve lin LM k lambda tol s1 = Some t1 /\ solve lin LM k lambda tol s = Some t /\
  chi2_of (s_w t1) < chi2_of (s_w s1) /\ (forall i, (i < length (nodes_of cs))%nat -> state_of (s_w t) i = state_of (s_w s) i).
Proof.
  exists S, lone_calls, blocked_calls. assert (T1 : typed [] lone_calls) by (cbn; repeat split; auto; discriminate). assert (T : typed [] blocked_calls) by (cbn; repeat split; auto; discriminate).
  split; [exact T1|]. split; [exact T|]. split; [repeat (apply Forall_cons; [first [exact I | exact (id3_proper _)]|]); apply Forall_nil|]. split; [exact blocked_infos|].
  split; [repeat (apply Forall_cons; [first [exact (rigid_solid _ lying_rigid) | exact I]|]); apply Forall_nil|].
  split. { intros [|[|i]] Hi; [eapply held_pose3d; [right; left; reflexivity|apply id_positive]|eapply held_pose2d; [do 3 right; left; reflexivity|apply id_positive]|cbn in Hi; lia]. }
  split. { constructor; [intros [|[|i]] m v Ei; try discriminate; injection Ei as <- <-; eexists; reflexivity|intros i j _ _ Q; injection Q; auto|].
    exists [CPose3d lying 0 id3]. split; [cbn; apply perm_swap|]. intros c i [<-|[]] Hi I. cbn in I. destruct I as [I|[]]. discriminate. }
  split; [repeat (apply Forall_cons; [exact I|]); apply Forall_nil|].
  intros lin k la tol X. destruct (session_inv lin QUADRATIC lone_calls T1) as (s1 & E1 & V1 & _). destruct (session_inv lin QUADRATIC blocked_calls T) as (s & E & V & _).
  assert (A0 : state_of (s_w s1) 0 = P2 (mkV3 1 0 0)) by (clear - E1; unfold lone_calls in E1; cbv -[id3 IZR lvec res_pose2d jac_pose2d l3 lmat R1 R0] in E1; injection E1 as <-; reflexivity).
  assert (B : state_of (s_w s) 0 = P3 lying /\ state_of (s_w s) 1 = P2 (mkV3 1 0 0)) by (clear - E; unfold blocked_calls in E; generalize dependent lying; intros A E; cbv -[id3 IZR lvec res_pose2d jac_pose2d res_pose3d jac_pose3d l3 l6 lmat R1 R0] in E; injection E as <-; split; reflexivity).
  destruct B as [B0 B1]. destruct (solve_total lin LM k la tol s1 (gd_wf _ (iv_good _ _ _ V1))) as [t1 Et1]. destruct (solve_total lin LM k la tol s (gd_wf _ (iv_good _ _ _ V))) as [t Et]. exists s1, s, t1, t. split; auto. split; auto.
  split. { intros [|i] Hi; [congruence|cbn in Hi; lia]. } split; auto. split; auto. split.
  - clear - Et1 V1 A0 X. unfold solve in Et1. destruct (optimize_levenberg_marquardt lin k _) as [[u j]|] eqn:Q; [|discriminate]. cbn in Et1. injection Et1 as <-. unfold optimize_levenberg_marquardt in Q. apply lm_loop_spec in Q; [|lia]. destruct Q as (es & e & I & _).
    set (r := with_lambda _ _) in I. assert (Vr : inv QUADRATIC lone_calls (s_w r)) by exact V1. assert (Sr : state_of (s_w r) 0 = P2 (mkV3 1 0 0)) by exact A0. assert (Lr : s_lambda r = 1 / 100000) by reflexivity. change (s_w s1) with (s_w r). clearbody r. clear V1 A0.
    assert (Ne : exists a es', es ++ [e] = a :: es') by (destruct es as [|a es']; cbn; eauto). destruct Ne as (a & es' & Ne). rewrite Ne in I. inversion I as [|r0 r1 r2 a0 es0 It Its]; subst.
    destruct (lone_lm lin 1 id3 r _ a 1 X Rlt_0_1 (id3_proper 3) quad_id3 Vr Sr ltac:(rewrite Lr; lra) It) as (_ & _ & C & C0 & Vn & _).
    destruct (iters_chi2 _ _ _ _ (wf_factors _ (gd_wf _ (iv_good _ _ _ Vn))) (tracks_wrap _ _ _ (iv_tracks _ _ _ Vn)) Its) as [L _]. fold lone_calls in *. rewrite C0. rewrite C, Lr in L. unfold Rsqr in *. lra.
  - unfold solve in Et. destruct (optimize_levenberg_marquardt lin k _) as [[u j]|] eqn:Q; [|discriminate]. cbn in Et. injection Et as <-. unfold optimize_levenberg_marquardt in Q. apply lm_loop_spec in Q; [|lia]. destruct Q as (es & e & I & _).
    destruct (blocked_iters lin QUADRATIC _ _ _ X ltac:(discriminate) I V B0 B1 ltac:(cbn; lra)) as [C0 C1]. intros [|[|i]] Hi; [congruence|congruence|cbn in Hi; lia].
Qed.
Print Assumptions C87_lm_refuted.
