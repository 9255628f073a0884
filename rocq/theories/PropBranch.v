(** C97: a new branch does not change the rest of the map. *)
Require Import Reals List Arith Lia Lra Bool Permutation.
From Verif Require Import Lin LinFacts SpecGeom SO3 SE3 SO3Misc SE3Alg Nodes NodesProofs Robust Graph GraphProofs Sums Solve SpecSolve SolveFrame SolveSums SolveBuild SolveProofs Session SessionProofs.
From Verif Require Import Factors SpecFactors FactorsDer FactorsPlanar Factors3D Factors3DLn FactorsMore FactorsSession FrameSolve SpecFrame SpecSolvable SolvableFactors SolvableSession MappingSession Reorder ReorderSolve PropSolve PropFrame PropSolvable PropMapping PropFactors SpecLocate SpecChain Chain SpecGrow Grow PropGrow SpecBranch Branch.
Import ListNotations.
Local Open Scope R_scope.

(** *** A Gauss-Newton solve takes the old nodes where it takes them without the branch,
    whatever the states and the measurements of the branch *)
Theorem C97_branch : forall lin lin' rob cs cs' s s' ex more m lambda tol, exact lin -> exact lin' -> typed [] cs -> typed [] cs' -> Forall call_info cs -> Forall call_info cs' -> Forall solid_call cs' -> rob <> RANSAC ->
  pycalls lin rob (solver_new world_new) cs = Some s -> pycalls lin' rob (solver_new world_new) cs' = Some s' -> grown cs cs' ex more ->
  Forall (fun x => fst x = STANDARD) ex -> length ex = length more -> branch (length (nodes_of cs)) more ->
  (forall j, (j < length (nodes_of cs))%nat -> state_of (s_w s') j = state_of (s_w s) j) ->
  (forall b, build_problem false s = Some b -> nonsingular (g_stateDim (w_graph (s_w s))) (s_L b)) ->
  exists t t', solve lin GN m lambda tol s = Some t /\ solve lin' GN m lambda tol s' = Some t' /\
  forall j, (j < length (nodes_of cs))%nat -> state_of (s_w t') j = state_of (s_w t) j.
Proof.
  intros lin lin' rob cs cs' s s' ex more m la tol X X' Ty Ty' P P' So NR E E' G Std Len Br Same Nn.
  destruct (branch_nonsingular lin lin' rob cs cs' s s' ex more Ty Ty' P P' So NR E E' G Std Len Br Same) as (b & b' & r & Eb & Eb' & V & V' & O & O' & D & N' & St & _). specialize (Nn b Eb).
  apply (branch_solve lin lin' rob cs cs' s s' ex more b b' r); auto.
Qed.
Print Assumptions C97_branch.
(** *** ... and the problem stays determined, with the same uncertainty of the old nodes *)
Theorem C97_uncertainty : forall lin lin' rob cs cs' s s' ex more, typed [] cs -> typed [] cs' -> Forall call_info cs -> Forall call_info cs' -> Forall solid_call cs' -> rob <> RANSAC ->
  pycalls lin rob (solver_new world_new) cs = Some s -> pycalls lin' rob (solver_new world_new) cs' = Some s' -> grown cs cs' ex more ->
  Forall (fun x => fst x = STANDARD) ex -> length ex = length more -> branch (length (nodes_of cs)) more ->
  (forall j, (j < length (nodes_of cs))%nat -> state_of (s_w s') j = state_of (s_w s) j) ->
  exists b b', build_problem false s = Some b /\ build_problem false s' = Some b' /\ let n := g_stateDim (w_graph (s_w s)) in let n' := g_stateDim (w_graph (s_w s')) in
  (n <= n')%nat /\ (nonsingular n (s_L b) -> nonsingular n' (s_L b')) /\
  forall C C', inverse_of n (s_L b) C -> inverse_of n' (s_L b') C' -> forall p q, (p < n)%nat -> (q < n)%nat -> C' p q = C p q.
Proof.
  intros lin lin' rob cs cs' s s' ex more Ty Ty' P P' So NR E E' G Std Len Br Same.
  destruct (branch_nonsingular lin lin' rob cs cs' s s' ex more Ty Ty' P P' So NR E E' G Std Len Br Same) as (b & b' & r & Eb & Eb' & V & V' & O & O' & D & N' & _ & C).
  exists b, b'. split; auto. split; auto. cbv zeta. rewrite D. split; [lia|]. split; auto.
Qed.
Print Assumptions C97_uncertainty.

(** *** ... the same after any number of solves, if all nodes are held *)
Theorem C97_again : forall lin rob cs cs' s s' ex more solves, exact lin -> typed [] cs -> typed [] cs' -> Forall call_info cs -> Forall call_info cs' -> Forall solid_call cs -> Forall solid_call cs' -> rob <> RANSAC ->
  (forall j, (j < length (nodes_of cs))%nat -> held cs j) ->
  pycalls lin rob (solver_new world_new) cs = Some s -> pycalls lin rob (solver_new world_new) cs' = Some s' -> grown cs cs' ex more ->
  Forall (fun x => fst x = STANDARD) ex -> length ex = length more -> branch (length (nodes_of cs)) more ->
  (forall j, (j < length (nodes_of cs))%nat -> state_of (s_w s') j = state_of (s_w s) j) ->
  Forall (fun c => exists m lambda tol, c = CSolve GN m lambda tol) solves ->
  exists t t', pycalls lin rob (solver_new world_new) (cs ++ solves) = Some t /\ pycalls lin rob (solver_new world_new) (cs' ++ solves) = Some t' /\
  forall j, (j < length (nodes_of cs))%nat -> state_of (s_w t') j = state_of (s_w t) j.
Proof.
  intros lin rob cs cs' s s' ex more solves X Ty Ty' P P' So So' NR Hd E E' G Std Len Br Same Mo. revert cs cs' s s' Ty Ty' P P' So So' Hd E E' G Br Same.
  induction Mo as [|c0 rest (m & la & tol & ->) Mo IH]; intros cs cs' s s' Ty Ty' P P' So So' Hd E E' G Br Same. { exists s, s'. rewrite !app_nil_r. auto. }
  assert (Nn : forall b, build_problem false s = Some b -> nonsingular (g_stateDim (w_graph (s_w s))) (s_L b)).
  { intros b Q. destruct (session_inv lin rob cs Ty) as (s0 & E0 & V & Fi). rewrite E in E0. injection E0 as <-. apply (gn_regular s b (gd_wf _ (iv_good _ _ _ V))); auto. intros x Z. apply (held_one rob cs (s_w s)); auto. rewrite Z. ring. }
  destruct (C97_branch lin lin rob cs cs' s s' ex more m la tol X X Ty Ty' P P' So' NR E E' G Std Len Br Same Nn) as (t & t' & Et & Et' & St).
  set (sv := CSolve GN m la tol). assert (Nd : forall l, nodes_of (l ++ [sv]) = nodes_of l) by (intros l; unfold nodes_of; rewrite flat_map_app; apply app_nil_r). assert (Fm : forall l, filter measures (l ++ [sv]) = filter measures l) by (intros l; rewrite filter_app; apply app_nil_r).
  assert (Run : forall l u u', pycalls lin rob (solver_new world_new) l = Some u -> solve lin GN m la tol u = Some u' -> pycalls lin rob (solver_new world_new) (l ++ [sv]) = Some u') by (intros l u u' Eu Es; rewrite calls_app, Eu; unfold pycalls; cbn [map pyrun pycall_op pystep sv]; rewrite Es; reflexivity).
  change (cs ++ sv :: rest) with (cs ++ [sv] ++ rest). change (cs' ++ sv :: rest) with (cs' ++ [sv] ++ rest). rewrite !app_assoc.
  rewrite <- (Nd cs). apply (IH (cs ++ [sv]) (cs' ++ [sv]) t t'); rewrite ?Nd; auto.
  - apply typed_app; split; auto; cbn; auto.
  - apply typed_app; split; auto; cbn; auto.
  - apply Forall_app; split; auto. repeat constructor.
  - apply Forall_app; split; auto. repeat constructor.
  - apply Forall_app; split; auto. repeat constructor.
  - apply Forall_app; split; auto. repeat constructor.
  - intros j Hj. specialize (Hd j Hj). clear - Hd Nd. assert (I : forall x, In x cs -> In x (cs ++ [sv])) by (intros x Ix; apply in_app_iff; auto). induction Hd; [apply (held_anchor _ i v); rewrite Nd; auto|eapply held_pose2d|eapply held_pose3d|eapply held_2poses2d|eapply held_2poses2d'|eapply held_odom|eapply held_odom'|eapply held_2poses3d|eapply held_2poses3d'|eapply held_landmark2d|eapply held_landmark3d|eapply held_plane]; eauto.
  - apply (Run cs s); auto.
  - apply (Run cs' s'); auto.
  - destruct G as [A B]. split; [rewrite !Nd; exact A|rewrite !Fm; exact B].
Qed.
Print Assumptions C97_again.

(** *** Example: the two steps of odometry of C96, one more step, and a landmark seen
    from there; neither node is where its measurement would have it *)
Definition new_calls : list pycall := [C2Poses3d step1 2 3 id3 false; CLandmark3d (mkV3 0 2 3) 3 4 id3 false].
Definition once_calls : list pycall := path_calls ++ [CNode STANDARD (P3 m4id); CNode STANDARD (L3 (mkV3 7 7 7))] ++ new_calls.
Example C97_ex : forall lin rob, exists s s', typed [] path_calls /\ typed [] once_calls /\ Forall call_info path_calls /\ Forall call_info once_calls /\ Forall solid_call path_calls /\ Forall solid_call once_calls /\
  (forall j, (j < length (nodes_of path_calls))%nat -> held path_calls j) /\
  pycalls lin rob (solver_new world_new) path_calls = Some s /\ pycalls lin rob (solver_new world_new) once_calls = Some s' /\ grown path_calls once_calls [(STANDARD, KP3); (STANDARD, KL3)] new_calls /\
  branch (length (nodes_of path_calls)) new_calls /\
  forall i, (i < length (nodes_of path_calls))%nat -> state_of (s_w s') i = state_of (s_w s) i.
Proof.
  intros lin rob. assert (T : typed [] path_calls) by (cbn; repeat split; auto; discriminate). assert (T2 : typed [] once_calls) by (cbn; repeat split; auto; discriminate).
  destruct (session_inv lin rob _ T) as (s & E & _). destruct (session_inv lin rob _ T2) as (s2 & E2 & _). exists s, s2.
  split; auto. split; auto.
  split. { unfold path_calls. repeat (apply Forall_cons; [first [exact I|exact (id3_proper 6)]|]). apply Forall_nil. }
  split. { unfold once_calls, path_calls, new_calls. cbn [app]. repeat (apply Forall_cons; [first [exact I|exact (id3_proper 6)|exact (id3_proper 3)]|]). apply Forall_nil. }
  split. { unfold path_calls. repeat (apply Forall_cons; [first [exact I|exact loop_solid|exact (rigid_solid _ (trans_rigid _))|exact (rigid_solid _ rigid_id)]|]). apply Forall_nil. }
  split. { unfold once_calls, path_calls, new_calls. cbn [app]. repeat (apply Forall_cons; [first [exact I|exact loop_solid|exact (rigid_solid _ (trans_rigid _))|exact (rigid_solid _ rigid_id)]|]). apply Forall_nil. }
  split. { assert (H0 : held path_calls 0) by (eapply held_anchor; reflexivity). assert (H1 : held path_calls 1) by (eapply (held_2poses3d _ step1 0 1); [do 3 right; left; reflexivity|apply id_positive|exact H0]).
    assert (H2 : held path_calls 2) by (eapply (held_2poses3d _ step1 1 2); [do 4 right; left; reflexivity|apply id_positive|exact H1]). intros [|[|[|j]]] Hj; auto. cbn in Hj. lia. }
  split; auto. split; auto. split. { split; [reflexivity|apply Permutation_refl]. }
  split. { intros [|[|j]] c Ej; [| |destruct j; discriminate]; injection Ej as <-; [exists 2%nat|exists 3%nat]; (split; [cbn; lia|]); [apply (hangs_2poses3d _ step1 2 3 id3 false)|apply (hangs_landmark3d _ (mkV3 0 2 3) 3 4 id3 false)]; try apply id_positive; left; reflexivity. }
  assert (A : forall k, (k < 3)%nat -> state_of (s_w s) k = path_poses k) by (clear - E; small_run E). assert (A2 : forall k, (k < 3)%nat -> state_of (s_w s2) k = path_poses k) by (clear - E2; unfold once_calls, new_calls in E2; small_run E2).
  intros i Hi. change (length (nodes_of path_calls)) with 3%nat in Hi. rewrite A, A2 by auto. auto.
Qed.
