(** Properties C32-C39, C65: the sparse solver FGraphSolve. *)
Require Import Reals List Arith Lia Lra Bool.
From Verif Require Import Lin SO3 AngleProofs Nodes NodesProofs Robust RobustProofs Graph GraphProofs Sums Solve SpecSolve.
From Verif Require Import SolveIndex SolveFrame SolveSums SolveBuild SolveProofs Session SessionProofs.
Import ListNotations.
Local Open Scope R_scope.

(** ** concrete graphs for the examples *)
Definition pose_res (vs : list nval) (i : nat) : R :=
  match vs with
  | [P2 a; P2 b] => match i with 0%nat => vx b - vx a - 1 | 1%nat => vy b - vy a | _ => vz b - vz a end
  | [P2 a; L2 x y] => match i with 0%nat => x - vx a | _ => y - vy a end
  | [L2 x y] => match i with 0%nat => x - 1 | _ => y - 2 end
  | _ => 0
  end.
(** minus the identity on the first block, the identity on a block 3 columns later *)
Definition pose_jac (_ : list nval) (i j : nat) : R := if Nat.eqb j i then -1 else if Nat.eqb j (i + 3) then 1 else 0.
Definition id_mat (i j : nat) : R := if Nat.eqb i j then 1 else 0.
Definition run_world (ops : list gop) : world := match grun world_new ops with Some w => w | None => world_new end.
(** an anchored pose, a pose, a landmark; odometry and a robust landmark observation *)
Definition slam_ops : list gop :=
  [ONewNode ANCHOR (P2 (mkV3 0 0 0)); OAddNode 0; ONewNode STANDARD (P2 (mkV3 1 1 0)); OAddNode 1; ONewNode STANDARD (L2 3 4); OAddNode 2;
   ONewFactor 3 6 [0%nat; 1%nat] pose_res pose_jac id_mat QUADRATIC; OAddFactor 0;
   ONewFactor 2 5 [1%nat; 2%nat] pose_res pose_jac id_mat HUBER; OAddFactor 1].
Definition slam : world := Eval lazy -[pose_res pose_jac id_mat IZR] in run_world slam_ops.

Lemma slam_good : good slam.
Proof.
  assert (X : exists s, srun (fun _ _ b => b) (solver_new world_new) (map SGraph slam_ops) = Some s /\ good (s_w s)).
  { apply sclean_run. apply good_new. cbn.
    repeat (split; [cbn; try (repeat split; try lia; try congruence; auto; repeat constructor; cbn; try lia; intuition lia) | intros ? E; injection E as <-]); auto. }
  destruct X as (s & E & D). change (srun (fun _ _ b => b) (solver_new world_new) (map SGraph slam_ops)) with (Some (with_world (solver_new world_new) slam)) in E.
  injection E as <-. exact D.
Qed.
Lemma slam_wf : wf slam. Proof. apply slam_good. Qed.
Lemma id_sym d : sym_on d id_mat.
Proof. intros i j _ _. unfold id_mat. rewrite Nat.eqb_sym. reflexivity. Qed.
Lemma id_quad d x : quad d id_mat x x = sumn d (fun i => x i * x i).
Proof.
  unfold quad. apply sumn_ext; intros i Hi. rewrite (sumn_single d i); auto. unfold id_mat. rewrite Nat.eqb_refl. ring.
  intros k _ K. unfold id_mat. destruct (Nat.eqb_spec i k); [congruence|ring].
Qed.
Lemma id_psd d : psd_on d id_mat.
Proof. intros x. rewrite id_quad. apply sumn_nonneg. intros. apply Rle_0_sqr. Qed.
Lemma slam_infos : sym_infos slam /\ psd_infos slam /\ weights_nonneg slam.
Proof.
  repeat split.
  - intros l [<-|[<-|[]]]; apply id_sym.
  - intros l [<-|[<-|[]]]; apply id_psd.
  - apply no_ransac_nonneg. intros l [<-|[<-|[]]]; discriminate.
Qed.

(** ** C32 *)
Theorem C32_placement : forall s, wf (s_w s) -> let w := s_w s in exists s', build_adjacency s = Some s' /\
  s_N s' = g_stateDim (w_graph w) /\ s_M s' = g_obsDim (w_graph w) /\
  (* the Jacobian blocks of the nodes that are not anchored, and nothing else *)
  (forall e, In e (s_A s') <-> exists i lf l j n m k, nth_error (g_factors (w_graph w)) i = Some lf /\ (l < fdim w lf)%nat /\
     nth_error (f_nodes (fa w lf)) j = Some n /\ n_mode (nd w n) <> ANCHOR /\
     nth_error (g_active (w_graph w)) m = Some n /\ (k < ndim w n)%nat /\
     e = ((row w i + l)%nat, (col w m + k)%nat, jac_at w lf l (before (ndim w) (f_nodes (fa w lf)) j + k)%nat)) /\
  NoDup (map fst (s_A s')) /\ (forall e, In e (s_A s') -> in_bounds (g_obsDim (w_graph w)) (g_stateDim (w_graph w)) e) /\
  (* the upper triangles of the weighted information matrices, and nothing else *)
  (forall e, In e (s_W s') <-> exists i lf l k, nth_error (g_factors (w_graph w)) i = Some lf /\ (l <= k < fdim w lf)%nat /\
     e = ((row w i + l)%nat, (row w i + k)%nat, weight_at w lf * f_info (fa w lf) l k)) /\
  NoDup (map fst (s_W s')) /\ (forall e, In e (s_W s') -> in_bounds (g_obsDim (w_graph w)) (g_obsDim (w_graph w)) e) /\
  (* the residuals *)
  (forall i lf l, nth_error (g_factors (w_graph w)) i = Some lf -> (l < fdim w lf)%nat -> s_r s' (row w i + l)%nat = res_at w lf l).
Proof.
  intros s H w. destruct (build_wf s H) as (s' & E & B). exists s'. split; auto. split; [apply B|]. split; [apply B|].
  split; [apply built_A; auto|]. split; [apply B|]. split; [apply B|]. split; [apply built_W; auto|]. split; [apply B|]. split; [apply B|]. apply B.
Qed.
Print Assumptions C32_placement.
(** graphs built by well-behaved programs are well-formed *)
Theorem C32_programs : forall lin ops, sclean lin (solver_new world_new) ops ->
  exists s', srun lin (solver_new world_new) ops = Some s' /\ wf (s_w s').
Proof.
  intros lin ops C. destruct (sclean_run lin ops (solver_new world_new) good_new C) as (s' & E & D). exists s'. split; auto. apply D.
Qed.
Print Assumptions C32_programs.
(** the same standard node twice in one factor: Eigen's insert is called twice for a position *)
Theorem C32_repeated_node_refuted : exists ops w, grun world_new ops = Some w /\ build_adjacency (solver_new w) = None.
Proof.
  exists [ONewNode STANDARD (L2 0 0); OAddNode 0; ONewFactor 1 4 [0%nat; 0%nat] pose_res pose_jac id_mat QUADRATIC; OAddFactor 0].
  eexists. split; [reflexivity|]. reflexivity.
Qed.
Print Assumptions C32_repeated_node_refuted.
(** a graph with an eigen factor: obsDim_ counts it, the factors to build do not include it *)
Theorem C32_eigen_factor_refuted : exists ops w, grun world_new ops = Some w /\ build_adjacency (solver_new w) = None.
Proof.
  exists [ONewNode STANDARD (L2 0 0); OAddNode 0; ONewFactor 1 2 [0%nat] pose_res pose_jac id_mat QUADRATIC; OAddEigen 0].
  eexists. split; [reflexivity|]. reflexivity.
Qed.
Print Assumptions C32_eigen_factor_refuted.
(** a node un-anchored after it was added has no column: its block goes to column 0,
    on top of another node's *)
Theorem C32_unanchored_refuted : exists ops w, grun world_new ops = Some w /\ ~ Exists (fun o => match o with OAddEigen _ => True | _ => False end) ops /\
  build_adjacency (solver_new w) = None.
Proof.
  exists [ONewNode STANDARD (L2 0 0); OAddNode 0; ONewNode ANCHOR (L2 0 0); OAddNode 1; OSetMode 1 STANDARD;
          ONewFactor 1 4 [0%nat; 1%nat] pose_res pose_jac id_mat QUADRATIC; OAddFactor 0].
  eexists. split; [reflexivity|]. split; [|reflexivity].
  intros X. repeat (inversion X as [? ? Y|? ? Y]; subst; [destruct Y|clear X; rename Y into X]). inversion X.
Qed.
Print Assumptions C32_unanchored_refuted.
Example C32_example : wf slam /\ g_stateDim (w_graph slam) = 5%nat /\ g_obsDim (w_graph slam) = 5%nat /\ n_mode (nd slam 0) = ANCHOR /\
  fdim slam 1 = 2%nat /\ row slam 1 = 3%nat /\ col slam 1 = 3%nat.
Proof. split; [apply slam_wf|]. repeat split. Qed.
Example C32_example_program : sclean (fun _ _ b => b) (solver_new world_new) (map SGraph slam_ops).
Proof.
  cbn. repeat (split; [cbn; try (repeat split; try lia; try congruence; auto; repeat constructor; cbn; try lia; intuition lia) | intros ? E; injection E as <-]); auto.
Qed.

(** ** C33 *)
Theorem C33_normal_equations : forall s s' x y, wf (s_w s) -> sym_infos (s_w s) -> build_problem false s = Some s' ->
  let w := s_w s in let n := g_stateDim (w_graph w) in
  sumn n (fun i => sumn n (fun j => x i * s_L s' i j * y j)) =
    lsum (g_factors (w_graph w)) (fun l => weight_at w l * quad (fdim w l) (f_info (fa w l)) (jac_times w l (increments w x)) (jac_times w l (increments w y))) /\
  sumn n (fun i => s_b s' i * x i) =
    lsum (g_factors (w_graph w)) (fun l => weight_at w l * quad (fdim w l) (f_info (fa w l)) (jac_times w l (increments w x)) (res_at w l)) /\
  (forall i j, (i < n)%nat -> (j < n)%nat -> s_L s' i j = s_L s' j i) /\
  (psd_infos w -> weights_nonneg w -> 0 <= sumn n (fun i => sumn n (fun j => x i * s_L s' i j * x j))).
Proof.
  intros s s' x y H SI E w n. destruct (build_wf s H) as (s1 & E1 & B). unfold build_problem in E. rewrite E1 in E. injection E as <-.
  unfold n, w. split. { rewrite (normal_matrix s s1 x y H B). apply lsum_ext. intros l I. rewrite quad_sym; auto. }
  split. { rewrite (normal_rhs s s1 x H B). apply lsum_ext. intros l I. rewrite quad_sym; auto. }
  split. { intros i j Hi Hj. set (L := s_L (build_info_adjacency s1)). rewrite <- (unit_form n L i j Hi Hj), <- (unit_form n L j i Hj Hi). apply (form_sym s s1); auto. }
  intros P Wn. apply (form_psd s s1); auto.
Qed.
Print Assumptions C33_normal_equations.
(** the robust weights are nonnegative for every type but RANSAC *)
Theorem C33_weights : forall w, (forall l, In l (g_factors (w_graph w)) -> f_rob (fa w l) <> RANSAC) -> weights_nonneg w.
Proof. exact no_ransac_nonneg. Qed.
Print Assumptions C33_weights.
(** without symmetry the upper triangle is used on both sides *)
Theorem C33_nonsymmetric_refuted : exists s s' x, wf (s_w s) /\ build_problem false s = Some s' /\
  let w := s_w s in let n := g_stateDim (w_graph w) in
  sumn n (fun i => sumn n (fun j => x i * s_L s' i j * x j)) <>
    lsum (g_factors (w_graph w)) (fun l => weight_at w l * quad (fdim w l) (f_info (fa w l)) (jac_times w l (increments w x)) (jac_times w l (increments w x))).
Proof.
  set (info := fun i j : nat => if Nat.eqb i j then 1 else if Nat.ltb i j then 2 else 0).
  set (w := run_world [ONewNode STANDARD (L2 0 0); OAddNode 0; ONewFactor 2 2 [0%nat] pose_res pose_jac info QUADRATIC; OAddFactor 0]).
  assert (H : wf w).
  { constructor; cbn.
    - intros l [<-|[]]. split; [lia|discriminate].
    - constructor; [intros []|constructor].
    - intros l [<-|[]]. lia.
    - intros l n [<-|[]] [<-|[]] _. auto.
    - intros l [<-|[]]. cbn. constructor; [intros []|constructor].
    - reflexivity.
    - reflexivity. }
  destruct (build_wf (solver_new w) H) as (s1 & E1 & B).
  exists (solver_new w), (build_info_adjacency s1), (fun _ => 1). split; auto. split. { unfold build_problem. rewrite E1. reflexivity. }
  cbv zeta. rewrite (normal_matrix (solver_new w) s1 (fun _ => 1) (fun _ => 1) H B). unfold w, run_world, lsum, quad, upper_sym, jac_times, weight_at, info, pose_jac; cbn. lra.
Qed.
Print Assumptions C33_nonsymmetric_refuted.
Example C33_example : wf slam /\ sym_infos slam /\ psd_infos slam /\ weights_nonneg slam /\ exists s', build_problem false (solver_new slam) = Some s'.
Proof.
  split; [apply slam_wf|]. destruct slam_infos as (A & B & C). repeat (split; auto).
  destruct (build_wf (solver_new slam) slam_wf) as (s1 & E1 & _). unfold build_problem. rewrite E1. eauto.
Qed.

(** ** C34 *)
Theorem C34_gauss_newton : forall lin maxIters lambda tol s s', wf (s_w s) -> sym_infos (s_w s) -> psd_infos (s_w s) -> weights_nonneg (s_w s) ->
  solve lin GN maxIters lambda tol s = Some s' -> let w := s_w s in let n := g_stateDim (w_graph w) in
  (forall i, (i < n)%nat -> sumn n (fun j => s_L s' i j * s_dx s' j) = s_b s' i) ->
  exists step : loc -> nat -> R,
    (* minimal among all increments that leave the anchors alone *)
    (forall d, (forall l k, n_mode (nd w l) = ANCHOR -> d l k = 0) -> lin_cost w step <= lin_cost w d) /\
    (* and applied to every active node, nothing else *)
    (forall l, In l (g_active (w_graph w)) -> nst (n_data (nd (s_w s') l)) = val_update (nst (n_data (nd w l))) (step l)) /\
    (forall l, ~ In l (g_active (w_graph w)) -> nd (s_w s') l = nd w l).
Proof.
  intros lin k la tol s s' H SI P Wn E w n X. unfold solve in E.
  destruct (optimize_gauss_newton lin false (with_tol (with_lambda s la) tol)) as [s1|] eqn:G; [|discriminate]. cbn in E. injection E as <-.
  destruct (gn_frame _ _ _ _ G) as (SK & N1 & _). cbn [with_tol with_lambda s_w] in SK, N1. fold w in SK, N1.
  exists (increments w (fun i => - s_dx s1 i)). split; [|split].
  - intros d A. exact (gn_minimises lin (with_tol (with_lambda s la) tol) s1 H SI P Wn G X d A).
  - intros l I. apply In_nth_error in I. destruct I as [m Hm].
    pose proof (gn_updates (s_w s1) (s_dx s1) m l (skel_wf _ _ SK H)) as U. rewrite (sk_graph _ _ SK) in U. specialize (U Hm).
    unfold update_nodes; cbn [with_world s_w]. rewrite U. cbn [nst]. unfold increments. rewrite (nd_same (s_w s1) w l N1), (sk_graph _ _ SK), (skel_col _ _ SK). reflexivity.
  - intros l I. unfold update_nodes; cbn [with_world s_w]. destruct (update_nodes_spec (s_w s1) (s_dx s1)) as (_ & _ & _ & N3 & _).
    rewrite N3 by (rewrite (sk_graph _ _ SK); auto). apply nd_same; auto.
Qed.
Print Assumptions C34_gauss_newton.
(** the damped system of Levenberg-Marquardt is L + lambda I *)
Theorem C34_damping : forall lin s, wf (s_w s) -> exists s1 s0, build_problem false s = Some s0 /\ optimize_gauss_newton lin true s = Some s1 /\
  s_b s1 = s_b s0 /\ s_dx s1 = lin (g_stateDim (w_graph (s_w s))) (s_L s1) (s_b s1) /\
  forall i j, (i < g_stateDim (w_graph (s_w s)))%nat -> s_L s1 i j = s_L s0 i j + if Nat.eqb i j then s_lambda s else 0.
Proof.
  intros lin s H. destruct (gn_ok lin true s H) as (s1 & s' & E & B & G & _ & Eb & _ & EL & Ed & _).
  exists s1, (build_info_adjacency s'). split. { unfold build_problem. rewrite E. reflexivity. } repeat (split; auto).
Qed.
Print Assumptions C34_damping.
(** one landmark with a prior at (1, 2): the exact step of an exact solver *)
Definition prior : world := Eval lazy -[pose_res pose_jac id_mat IZR] in run_world [ONewNode STANDARD (L2 5 6); OAddNode 0; ONewFactor 2 2 [0%nat] pose_res pose_jac id_mat QUADRATIC; OAddFactor 0].
Lemma prior_wf : wf prior.
Proof.
  constructor; cbn.
  - intros l [<-|[]]. split; [lia|discriminate].
  - constructor; [intros []|constructor].
  - intros l [<-|[]]. lia.
  - intros l n [<-|[]] [<-|[]] _. auto.
  - intros l [<-|[]]. cbn. constructor; [intros []|constructor].
  - reflexivity.
  - reflexivity.
Qed.
Example C34_example : wf prior /\ sym_infos prior /\ psd_infos prior /\ weights_nonneg prior /\
  exists s', solve (fun _ _ b => b) GN 1 0 0 (solver_new prior) = Some s' /\
   forall i, (i < 2)%nat -> sumn 2 (fun j => s_L s' i j * s_dx s' j) = s_b s' i.
Proof.
  split; [apply prior_wf|]. split. { intros l [<-|[]]; apply id_sym. } split. { intros l [<-|[]]; apply id_psd. }
  split. { apply no_ransac_nonneg. intros l [<-|[]]; discriminate. }
  eexists. split; [reflexivity|]. intros i Hi.
  destruct i as [|[|i]]; [| |lia]; unfold pose_jac, id_mat, upper_sym; cbn -[sp_get]; unfold sp_get; cbn; ring.
Qed.

(** ** C35 *)
Theorem C35_anchors : forall lin m maxIters lambda tol s s', wf (s_w s) -> solve lin m maxIters lambda tol s = Some s' ->
  forall l, n_mode (nd (s_w s) l) = ANCHOR -> nd (s_w s') l = nd (s_w s) l.
Proof.
  intros lin m k la tol s s' H E l A. destruct (solve_frame _ _ _ _ _ _ _ E) as (_ & F & _). apply F. intros I.
  apply (proj2 (wf_active _ H l I)). auto.
Qed.
Print Assumptions C35_anchors.
(** on any graph only active nodes change, and nothing of the structure does *)
Theorem C35_only_active : forall lin m maxIters lambda tol s s', solve lin m maxIters lambda tol s = Some s' ->
  (forall l, ~ In l (g_active (w_graph (s_w s))) -> nd (s_w s') l = nd (s_w s) l) /\ skel (s_w s) (s_w s').
Proof. intros lin m k la tol s s' E. destruct (solve_frame _ _ _ _ _ _ _ E) as (A & B & _). auto. Qed.
Print Assumptions C35_only_active.
Lemma clean_step_state w g w' l : clean w g -> gstep w g = Some w' -> (l < length (w_nodes w))%nat -> (forall n v, g <> OSetState n v) -> n_mode (nd w l) = ANCHOR ->
  (length (w_nodes w) <= length (w_nodes w'))%nat /\ n_mode (nd w' l) = ANCHOR /\ nst (n_data (nd w' l)) = nst (n_data (nd w l)).
Proof.
  intros C1 G Ll NS A.
  pose proof (nth_nd _ _ Ll) as Nl.
  destruct g; cbn [clean] in C1; try contradiction; gstep_inv G; cbn [w_nodes alloc_node].
  + rewrite app_length. unfold alloc_node. rewrite nd_alloc. destruct (Nat.eqb_spec l (length (w_nodes w))); [lia|]. split; [lia|]. auto.
  + split; auto.
  + rewrite Wn, upd_length. split; [lia|]. assert (Q : nd w0 l = if Nat.eqb l l0 then node_set_id (number_nodes w) (nd w l) else nd w l).
    { apply nd_nth. rewrite Wn, upd_nth, Nl, Hk. destruct (Nat.eqb l l0); reflexivity. }
    rewrite Q. destruct (Nat.eqb l l0); auto.
  + rewrite Wn, link_all_length. split; [lia|]. assert (Q : exists q, nd w0 l = add_k l0 q (nd w l)).
    { eexists. apply nd_nth. rewrite Wn, link_all_nth, Nl. reflexivity. }
    destruct Q as [q ->]. auto.
  + rewrite upd_length. split; [lia|]. unfold nd; cbn [w_nodes]. rewrite nth_upd. fold (nd w l).
    destruct (Nat.eqb_spec l n) as [->|]; cbn [andb]; auto. rewrite Hx in Nl. injection Nl as ->. destruct (Nat.ltb _ _); auto.
  + exfalso. apply (NS n v). auto.
Qed.
(** along whole programs: a node anchored when it was added keeps its value through every solve *)
Theorem C35_programs : forall lin ops s s', good (s_w s) -> sclean lin s ops -> srun lin s ops = Some s' ->
  (forall n v, ~ In (SGraph (OSetState n v)) ops) ->
  forall l, (l < length (w_nodes (s_w s)))%nat -> n_mode (nd (s_w s) l) = ANCHOR -> nst (n_data (nd (s_w s') l)) = nst (n_data (nd (s_w s) l)).
Proof.
  induction ops as [|o ops IH]; intros s s' D C E NS l Ll A; cbn in E. { injection E as <-. auto. }
  destruct C as [C1 C2]. destruct (sstep lin s o) as [s1|] eqn:E1; [|discriminate]. specialize (C2 s1 eq_refl).
  assert (X : good (s_w s1) /\ (length (w_nodes (s_w s)) <= length (w_nodes (s_w s1)))%nat /\ n_mode (nd (s_w s1) l) = ANCHOR /\ nst (n_data (nd (s_w s1) l)) = nst (n_data (nd (s_w s) l))).
  { destruct o as [g|m k la tol|flag]; cbn in E1.
    - destruct (good_step _ _ D C1) as (w' & G & D'). rewrite G in E1. cbn in E1. injection E1 as <-. cbn [with_world s_w]. split; auto. clear C2 IH E D'.
      apply (clean_step_state (s_w s) g w' l C1 G); auto. intros n v ->. apply (NS n v). cbn; auto.
    - destruct (good_solve lin m k la tol s D) as (s2 & E2 & D2). rewrite E1 in E2. injection E2 as <-. split; auto.
      destruct (solve_frame _ _ _ _ _ _ _ E1) as (SK & _). rewrite (sk_nlen _ _ SK). split; [lia|].
      rewrite (C35_anchors _ _ _ _ _ _ _ (gd_wf _ D) E1 l A). auto.
    - injection E1 as <-. split. apply good_chi2; auto. cbn [with_world s_w]. destruct (chi2_fst (s_w s) flag) as [SK N]. rewrite N. split; [lia|]. rewrite (nd_same _ (s_w s) l N). auto. }
  destruct X as (D1 & L1 & A1 & V1). rewrite <- V1. apply (IH s1 s'); auto; try lia. intros n v I. apply (NS n v). cbn; auto.
Qed.
Print Assumptions C35_programs.
(** a node anchored after it was added still moves if the linear solver says so *)
Definition late_ops : list gop :=
  [ONewNode STANDARD (L2 5 6); OAddNode 0; OSetMode 0 ANCHOR; ONewFactor 2 2 [0%nat] pose_res pose_jac id_mat QUADRATIC; OAddFactor 0].
Definition late : world := Eval lazy -[pose_res pose_jac id_mat IZR] in run_world late_ops.
Theorem C35_late_anchor_refuted : exists ops w lin s', grun world_new ops = Some w /\ n_mode (nd w 0) = ANCHOR /\
  solve lin GN 1 0 0 (solver_new w) = Some s' /\ nst (n_data (nd (s_w s') 0)) <> nst (n_data (nd w 0)).
Proof.
  exists late_ops, late, (fun _ _ _ _ => 1).
  assert (X : exists s', solve (fun _ _ _ _ => 1) GN 1 0 0 (solver_new late) = Some s' /\ nst (n_data (nd (s_w s') 0)) = L2 (5 + - 1) (6 + - 1)).
  { lazy -[pose_res pose_jac id_mat IZR Rplus Rminus Ropp Rmult Rdiv Rinv sqrt robust_eval quad sumn sp_get]. eexists. split; reflexivity. }
  destruct X as (s' & E & V). exists s'. split; [reflexivity|]. split; [reflexivity|]. split; auto. rewrite V. cbn. intros Q. injection Q. lra.
Qed.
Print Assumptions C35_late_anchor_refuted.
Example C35_example : wf slam /\ n_mode (nd slam 0) = ANCHOR /\ exists s', solve (fun _ _ b => b) LM 7 0 0 (solver_new slam) = Some s'.
Proof. split; [apply slam_wf|]. split; [reflexivity|]. apply solve_total. apply slam_wf. Qed.

(** ** C36 *)
Theorem C36_lm_never_worse : forall lin maxIters lambda tol s s', valid_factors (s_w s) -> wrap_ok (s_w s) ->
  solve lin LM maxIters lambda tol s = Some s' -> chi2_of (s_w s') <= chi2_of (s_w s).
Proof.
  intros lin k la tol s s' V O E. unfold solve in E.
  destruct (optimize_levenberg_marquardt lin k (with_tol (with_lambda s la) tol)) as [[s1 j]|] eqn:G; [|discriminate]. cbn in E. injection E as <-.
  unfold optimize_levenberg_marquardt in G. apply lm_loop_spec in G; [|lia]. destruct G as (es & e & I & _).
  exact (proj1 (iters_chi2 lin _ (with_lambda (with_tol (with_lambda s la) tol) (1 / 100000)) _ V O I)).
Qed.
Print Assumptions C36_lm_never_worse.
(** one pass: the step is kept iff chi2 did not grow; the damping stays positive *)
Theorem C36_one_pass : forall lin s s' e, valid_factors (s_w s) -> wrap_ok (s_w s) -> lm_iter lin s = Some (s', e) ->
  (e = Rejected -> chi2_of (s_w s') = chi2_of (s_w s)) /\
  (e = Converged -> 0 <= chi2_of (s_w s) - chi2_of (s_w s') < s_tol s) /\
  (e = Accepted -> Rmax 0 (s_tol s) <= chi2_of (s_w s) - chi2_of (s_w s')) /\
  (0 < s_lambda s -> 0 < s_lambda s').
Proof.
  intros lin s s' e V O H. destruct (lm_iter_chi2 _ _ _ _ V O H) as (A & _ & B & C & D). split; auto.
  split. { intros X. specialize (C X). lra. } split. { intros X. specialize (D X). apply Rmax_lub; lra. }
  intros P. eapply lm_iter_lambda; eauto.
Qed.
Print Assumptions C36_one_pass.
(** the whole pass: the step of the damped system gives a trial state; it is kept
    unless its chi2 is larger; otherwise the old state comes back *)
Theorem C36_trial : forall lin s s' e, wf (s_w s) -> lm_iter lin s = Some (s', e) ->
  exists s1 w3, optimize_gauss_newton lin true s = Some s1 /\ skel (s_w s) w3 /\
    (forall l, In l (g_active (w_graph (s_w s))) ->
       nst (n_data (nd w3 l)) = val_update (nst (n_data (nd (s_w s) l))) (increments (s_w s) (fun i => - s_dx s1 i) l)) /\
    (forall l, ~ In l (g_active (w_graph (s_w s))) -> nd w3 l = nd (s_w s) l) /\
    e = lm_decide (Some (chi2_of (s_w s))) (Some (chi2_of w3)) (s_tol s) /\
    (forall l, In l (g_active (w_graph (s_w s))) -> nst (n_data (nd (s_w s') l)) =
       match e with Rejected => val_set (nst (n_data (nd (s_w s) l))) | _ => nst (n_data (nd w3 l)) end).
Proof. exact lm_iter_step. Qed.
Print Assumptions C36_trial.
(** on doubles a NaN chi2 is not "larger": the step is kept *)
Theorem C36_nan_refuted : exists c tol, 0 < tol /\ lm_decide (Some c) None tol = Accepted.
Proof. exists 0, 1. split; [lra|reflexivity]. Qed.
Print Assumptions C36_nan_refuted.
Example C36_example : valid_factors slam /\ wrap_ok slam /\ exists s', solve (fun _ _ b => b) LM 7 0 0 (solver_new slam) = Some s'.
Proof.
  split. { intros l I. apply (wf_factors _ slam_wf l I). } split. 2:{ apply solve_total. apply slam_wf. }
  left. intros l [<-|[<-|[]]]; cbn; auto. rewrite wrap3_id; auto. pose proof PI_RGT_0. unfold wrapped; cbn; lra.
Qed.

(** a pass over [prior] with a linear solver that always returns (c, c) *)
Lemma prior_chi2 w x y : skel prior w -> nst (n_data (nd w 0)) = L2 x y -> chi2_of w = 1 / 2 * ((x - 1) * (x - 1) + (y - 2) * (y - 2)).
Proof.
  intros SK E. unfold chi2_of. rewrite (sk_graph _ _ SK). change (g_factors (w_graph prior)) with [0%nat].
  unfold fchi2, fdim, res_at, states_of, lsum; cbn [map fold_right]. destruct (sk_factor _ _ SK 0) as (-> & -> & -> & _ & -> & _).
  change (f_nodes (fa prior 0)) with [0%nat]. cbn [map]. rewrite E. change (f_dim (fa prior 0)) with 2%nat. change (f_info (fa prior 0)) with id_mat.
  change (f_res (fa prior 0)) with pose_res. unfold quad, id_mat. cbn. field.
Qed.
Lemma prior_pass c s s' e : s_w s = prior -> lm_iter (fun _ _ _ _ => c) s = Some (s', e) ->
  e = lm_decide (Some 16) (Some ((4 - c) * (4 - c))) (s_tol s) /\
  nst (n_data (nd (s_w s') 0)) = match e with Rejected => L2 5 6 | _ => L2 (5 + - c) (6 + - c) end.
Proof.
  intros P L. assert (H : wf (s_w s)) by (rewrite P; apply prior_wf). destruct (lm_iter_step _ _ _ _ H L) as (s1 & w3 & G & SK & U & _ & D & K).
  assert (Dx : s_dx s1 = fun _ => c).
  { unfold optimize_gauss_newton in G. destruct (build_problem _ _); [|discriminate]. injection G as <-. reflexivity. }
  rewrite P in *. specialize (U 0%nat (or_introl eq_refl)). specialize (K 0%nat (or_introl eq_refl)). rewrite Dx in U.
  change (val_update _ _) with (L2 (5 + - c) (6 + - c)) in U. change (val_set _) with (L2 5 6) in K. rewrite U in K. split; auto.
  rewrite D. rewrite (prior_chi2 _ _ _ SK U), (prior_chi2 prior 5 6 (skel_refl _) eq_refl). f_equal; f_equal; field.
Qed.

(** ** C37 *)
Theorem C37_iterations : forall lin maxIters s s' k, optimize_levenberg_marquardt lin maxIters s = Some (s', k) ->
  exists es e, iters lin (es ++ [e]) (with_lambda s (1 / 100000)) s' /\ (1 <= length (es ++ [e]) <= Nat.max 1 maxIters)%nat /\ ~ In Converged es /\
    (e = Converged /\ k = length (es ++ [e]) \/ e <> Converged /\ k = 0%nat /\ length (es ++ [e]) = Nat.max 1 maxIters).
Proof.
  intros lin n s s' k G. unfold optimize_levenberg_marquardt in G. apply lm_loop_spec in G; [|lia]. destruct G as (es & e & I & NI & B & D).
  exists es, e. rewrite app_length. cbn [length]. split; auto. split; [lia|]. split; auto.
Qed.
Print Assumptions C37_iterations.
(** it always returns on well-formed graphs *)
Theorem C37_total : forall lin maxIters s, wf (s_w s) -> exists s' k, optimize_levenberg_marquardt lin maxIters s = Some (s', k).
Proof. intros lin n s H. apply lm_loop_total; auto; lia. Qed.
Print Assumptions C37_total.
(** maxIters = 0 still runs one pass *)
Lemma zero_iterations s s' k : s_w s = prior -> s_tol s = 1 / 100 -> optimize_levenberg_marquardt (fun _ _ _ _ => 4) 0 s = Some (s', k) ->
  nst (n_data (nd (s_w s') 0)) = L2 (5 + - 4) (6 + - 4).
Proof.
  intros P T E. unfold optimize_levenberg_marquardt in E. apply lm_loop_spec in E; [|lia]. destruct E as (es & e & I & _ & B & _).
  assert (X : es = []) by (destruct es; auto; cbn in B; lia). subst es. cbn [app] in I.
  inversion I as [|e0 es0 s0 s1 s2 L I']; subst. inversion I'; subst.
  destruct (prior_pass 4 (with_lambda s (1 / 100000)) _ _ P L) as (D & V). change (s_tol (with_lambda s (1 / 100000))) with (s_tol s) in D. rewrite T in D.
  unfold lm_decide in D. rewrite (proj2 (Rltb_niff _ 0)) in D by lra. rewrite (proj2 (Rltb_niff _ (1 / 100))) in D by lra. rewrite D in V. exact V.
Qed.
Theorem C37_zero_iterations_refuted : exists lin s s' k, optimize_levenberg_marquardt lin 0 s = Some (s', k) /\
  nst (n_data (nd (s_w s') 0)) <> nst (n_data (nd (s_w s) 0)).
Proof.
  exists (fun _ _ _ _ => 4), (with_tol (solver_new prior) (1 / 100)).
  destruct (C37_total (fun _ _ _ _ => 4) 0 (with_tol (solver_new prior) (1 / 100)) prior_wf) as (s' & k & E). exists s', k. split; auto.
  rewrite (zero_iterations (with_tol (solver_new prior) (1 / 100)) s' k eq_refl eq_refl E). change (nst (n_data (nd (s_w (with_tol (solver_new prior) (1 / 100))) 0))) with (L2 5 6).
  intros Q. injection Q. lra.
Qed.
Print Assumptions C37_zero_iterations_refuted.
Example C37_example : exists s' k, optimize_levenberg_marquardt (fun _ _ b => b) 5 (solver_new slam) = Some (s', k).
Proof. apply C37_total. apply slam_wf. Qed.

(** ** C38 *)
Theorem C38_lambda_ignored : forall lin m maxIters la la' tol s,
  option_map s_w (solve lin m maxIters la tol s) = option_map s_w (solve lin m maxIters la' tol s).
Proof. exact solve_lambda. Qed.
Print Assumptions C38_lambda_ignored.
Example C38_example : exists s, solve (fun _ _ b => b) LM 3 1 0 (solver_new slam) = Some s.
Proof. apply solve_total. apply slam_wf. Qed.

(** ** C39 *)
Theorem C39_chi2 : forall w, valid_factors w ->
  snd (chi2 true w) = lsum (g_factors (w_graph w)) (fun l => 1 / 2 * quad (fdim w l) (f_info (fa w l)) (res_at w l) (res_at w l)) /\
  (psd_infos w -> 0 <= snd (chi2 true w)) /\
  w_nodes (fst (chi2 true w)) = w_nodes w /\
  (* afterwards chi2(false) and the array agree with it *)
  chi2 false (fst (chi2 true w)) = chi2 true w /\
  lsum (get_chi2_array (fst (chi2 true w))) (fun x => x) = snd (chi2 true w).
Proof.
  intros w V. rewrite (chi2_true w V). cbn [fst snd]. pose proof (skel_chi2 w) as SK. destruct (chi2_world_spec w) as (N & _ & _ & D). set (w' := fold_left _ _ w) in *.
  assert (C : lsum (g_factors (w_graph w')) (fun l => f_chi2 (fa w' l)) = chi2_of w).
  { rewrite (sk_graph _ _ SK). apply lsum_ext. intros l I. rewrite D. pose proof (V l I) as L. apply Nat.ltb_lt in L. apply mem_In in I. rewrite I, L. reflexivity. }
  split; [reflexivity|]. split. { intros P. apply lsum_nonneg. intros l I. unfold fchi2. specialize (P l I (res_at w l)). lra. }
  split; auto. split. { rewrite chi2_false, C. reflexivity. } unfold get_chi2_array. rewrite lsum_map. exact C.
Qed.
Print Assumptions C39_chi2.
(** chi2(false) and the array are the cached values, always consistent with each other *)
Theorem C39_cached : forall w, fst (chi2 false w) = w /\ snd (chi2 false w) = lsum (get_chi2_array w) (fun x => x).
Proof. intros w. rewrite chi2_false. split; auto. unfold get_chi2_array. rewrite lsum_map. reflexivity. Qed.
Print Assumptions C39_cached.
(** after a rejected step they are too large: they belong to the abandoned state *)
Theorem C39_stale_after_rejection : forall lin s s', valid_factors (s_w s) -> wrap_ok (s_w s) -> lm_iter lin s = Some (s', Rejected) ->
  chi2_of (s_w s') < lsum (get_chi2_array (s_w s')) (fun x => x).
Proof. intros lin s s' V O H. unfold get_chi2_array. rewrite lsum_map. eapply lm_iter_stale; eauto. Qed.
Print Assumptions C39_stale_after_rejection.
Example C39_example : valid_factors prior /\ psd_infos prior /\ wrap_ok prior /\
  exists s', lm_iter (fun _ _ _ _ => -4) (solver_new prior) = Some (s', Rejected).
Proof.
  assert (V : valid_factors prior) by (intros l [<-|[]]; cbn; lia).
  split; auto. split. { intros l [<-|[]]; apply id_psd. } split. { left. intros l [<-|[]]; reflexivity. }
  destruct (lm_iter_wf (fun _ _ _ _ => -4) (solver_new prior) prior_wf) as (s' & e & E). exists s'. rewrite E. do 2 f_equal.
  destruct (prior_pass (-4) (solver_new prior) _ _ eq_refl E) as (D & V'). rewrite D. unfold lm_decide. rewrite (proj2 (Rltb_iff _ 0)) by lra. reflexivity.
Qed.

(** ** C65 *)
(** every program through FGraphPy that passes ids it was given, two different
    ones to a binary factor, runs without undefined behaviour and keeps the graph well-formed *)
Theorem C65_python_sessions : forall lin rob ops, pyclean lin rob (solver_new world_new) ops ->
  exists s', pyrun lin rob (solver_new world_new) ops = Some s' /\ wf (s_w s').
Proof.
  intros lin rob ops C. destruct (pyclean_run lin rob ops (solver_new world_new) good_new C) as (s' & E & D). exists s'. split; auto. apply D.
Qed.
Print Assumptions C65_python_sessions.
(** equal ids for the two nodes of a factor are not rejected *)
Theorem C65_equal_ids_refuted : exists ops, Forall (fun o => match o with PyFactor _ ids _ => Forall (fun i => (i < 1)%nat) ids | _ => True end) ops /\
  pyrun (fun _ _ b => b) QUADRATIC (solver_new world_new) ops = None.
Proof.
  exists [PyNode STANDARD (L2 0 0); PyFactor (mkFC 1 4 pose_res pose_jac None) [0%nat; 0%nat] id_mat; PySolve GN 1 0 0].
  split; [|reflexivity]. repeat constructor; lia.
Qed.
Print Assumptions C65_equal_ids_refuted.
Example C65_example : pyclean (fun _ _ b => b) HUBER (solver_new world_new)
  [PyNode ANCHOR (P2 (mkV3 0 0 0)); PyNode STANDARD (P2 (mkV3 1 1 0)); PyFactor (mkFC 3 6 pose_res pose_jac None) [0%nat; 1%nat] id_mat;
   PySolve LM 10 0 0; PyNode STANDARD (L2 3 4); PySolve GN 1 0 0; PyChi2 true].
Proof.
  cbn [pyclean pyclean1]. split; [discriminate|].
  intros s1 E1. cbn in E1. injection E1 as <-. split; [discriminate|]. intros s2 E2. cbn in E2. injection E2 as <-.
  split. { cbn. repeat constructor; cbn; intuition lia. } intros s3 E3. split; auto. intros. split; [discriminate|]. intros. auto.
Qed.
