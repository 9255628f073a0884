(** C75: what a Python session reads back from a graph. *)
Require Import Reals List Arith Lia Lra Bool.
From Verif Require Import Lin SO3 Nodes NodesProofs Robust Graph GraphProofs Sums Solve SpecSolve SolveIndex SolveFrame SolveBuild SolveProofs Session SessionProofs PropSolve.
Import ListNotations.
Local Open Scope R_scope.
Local Arguments nd : simpl never.
Local Arguments fa : simpl never.

Definition state_of (w : world) (l : loc) : nval := nst (n_data (nd w l)).
Lemma estimated_map w : get_estimated_state w = map (state_of w) (g_nodes (w_graph w)). Proof. reflexivity. Qed.
Lemma py_node_states w m v w' : good w -> py_node w m v = Some w' -> get_estimated_state w' = get_estimated_state w ++ [node_init v].
Proof.
  intros D E. unfold py_node in E. cbn [grun gstep] in E. set (w1 := alloc_node w (node_ctor m v)) in *. destruct (add_node w1 (length (w_nodes w))) as [[w2 k]|] eqn:A; [|discriminate]. injection E as <-.
  apply add_node_inv in A. destruct A as (n & EN & _ & WN & _ & GN & _).
  assert (ND : forall j, n_data (nd w2 j) = n_data (nd w1 j)).
  { intros j. unfold nd. rewrite WN, nth_upd. destruct (andb _ _); reflexivity. }
  rewrite !estimated_map, GN, map_app. cbn [map]. change (g_nodes (w_graph w1)) with (g_nodes (w_graph w)). f_equal.
  - apply map_ext_in. intros j J. unfold state_of. rewrite ND. unfold w1, alloc_node. rewrite nd_alloc. apply In_nth_error in J. destruct J as [q J]. destruct (gd_ids _ D _ _ J) as [L _]. destruct (Nat.eqb_spec j (length (w_nodes w))); [lia | reflexivity].
  - unfold state_of. rewrite ND. unfold w1, alloc_node. rewrite nd_alloc, Nat.eqb_refl. reflexivity.
Qed.
Lemma link_states w l : forall ns g, map (state_of (mkW (link_all ns l (w_nodes w)) g (w_graph w))) (g_nodes (w_graph w)) = map (state_of w) (g_nodes (w_graph w)).
Proof. intros ns g. apply map_ext. intros j. unfold state_of. rewrite nd_link. destruct (_ <? _)%nat; reflexivity. Qed.
Lemma add_new_states w f l w' : alloc_factor w f = Some w' -> forall w2 k, add_factor w' l = Some (w2, k) -> get_estimated_state w2 = get_estimated_state w.
Proof.
  intros A w2 k B. apply alloc_factor_inv in A. destruct A as [_ ->]. apply add_factor_inv in B. destruct B as (f0 & _ & _ & WN & _ & GN & _). rewrite !estimated_map, GN. cbn [w_graph w_nodes] in *.
  rewrite <- (link_states w l (f_nodes f0) []). apply map_ext. intros j. unfold state_of, nd. rewrite WN. reflexivity.
Qed.
Lemma set_states w n v w' : set_state w n v = Some w' -> g_nodes (w_graph w') = g_nodes (w_graph w) /\ (forall j, state_of w' j = if Nat.eqb j n then val_set v else state_of w j).
Proof.
  intros E. apply set_state_inv in E. destruct E as (x & d & EX & ES & ->). split; [reflexivity|]. intros j. unfold state_of, nd. cbn [w_nodes]. rewrite nth_upd.
  assert (n < length (w_nodes w))%nat as L by (apply nth_error_Some; congruence). destruct (Nat.eqb_spec j n) as [-> | N]; [|reflexivity]. apply Nat.ltb_lt in L. rewrite L. cbn [andb]. cbn.
  unfold node_set_state in ES. destruct (same_kind _ _); [|discriminate]. injection ES as <-. reflexivity.
Qed.
Lemma get_nodes_nth w ids ls p n : get_nodes w ids = Some ls -> nth_error ls p = Some n -> exists i, nth_error ids p = Some i /\ nth_error (g_nodes (w_graph w)) i = Some n.
Proof.
  revert ls p. induction ids as [|i ids IH]; intros ls p E H; cbn in E. { injection E as <-. destruct p; discriminate. }
  destruct (get_node w i) as [l|] eqn:G; [|discriminate]. destruct (get_nodes w ids) as [r|] eqn:Gr; [|discriminate]. injection E as <-. destruct p as [|p]; cbn in *; [injection H as <-; exists i; split; [reflexivity | exact G] | eauto].
Qed.
Lemma get_nodes_states w ids ls : get_nodes w ids = Some ls -> map Some (map (state_of w) ls) = map (fun i => nth_error (get_estimated_state w) i) ids.
Proof.
  revert ls. induction ids as [|i ids IH]; intros ls E; cbn in E. { injection E as <-. reflexivity. }
  destruct (get_node w i) as [l|] eqn:G; [|discriminate]. destruct (get_nodes w ids) as [r|] eqn:Gr; [|discriminate]. injection E as <-. cbn [map]. rewrite (IH r eq_refl). f_equal.
  unfold get_node in G. rewrite estimated_map. erewrite map_nth_error by exact G. reflexivity.
Qed.

(** *** States by id
    A new node is read at the id it was given (the number of nodes before), with
    the state it was given (planes scaled to a unit normal); no other state
    changes. *)
Theorem C75_add_node : forall lin rob ops s m v s', pyclean lin rob (solver_new world_new) ops -> pyrun lin rob (solver_new world_new) ops = Some s ->
  pystep lin rob s (PyNode m v) = Some s' ->
  get_estimated_state (s_w s') = get_estimated_state (s_w s) ++ [node_init v] /\ length (get_estimated_state (s_w s)) = number_nodes (s_w s).
Proof.
  intros lin rob ops s m v s' C E H. destruct (pyclean_run lin rob ops (solver_new world_new) good_new C) as (s0 & E0 & D). rewrite E in E0. injection E0 as <-. cbn [pystep] in H.
  destruct (py_node (s_w s) m v) as [w'|] eqn:P; [|discriminate]. injection H as <-. split; [exact (py_node_states _ _ _ _ D P) | unfold get_estimated_state, number_nodes; apply map_length].
Qed.
Print Assumptions C75_add_node.
(** A factor changes at most the one state that its constructor initialises. *)
Theorem C75_add_factor : forall lin rob ops s c ids info s', pyclean lin rob (solver_new world_new) ops -> pyrun lin rob (solver_new world_new) ops = Some s ->
  pystep lin rob s (PyFactor c ids info) = Some s' ->
  match fc_init c with
  | None => get_estimated_state (s_w s') = get_estimated_state (s_w s)
  | Some (p, g) => exists i vs, nth_error ids p = Some i /\ map Some vs = map (fun j => nth_error (get_estimated_state (s_w s)) j) ids /\
      nth_error (get_estimated_state (s_w s')) i = Some (val_set (g vs)) /\
      forall j, j <> i -> nth_error (get_estimated_state (s_w s')) j = nth_error (get_estimated_state (s_w s)) j
  end.
Proof.
  intros lin rob ops s c ids info s' C E H. destruct (pyclean_run lin rob ops (solver_new world_new) good_new C) as (s0 & E0 & D). rewrite E in E0. injection E0 as <-. cbn [pystep] in H. unfold py_factor in H.
  destruct (get_nodes (s_w s) ids) as [ls|] eqn:G; [|discriminate]. destruct (fc_init c) as [[p g]|].
  - destruct (nth_error ls p) as [n|] eqn:EN; [|discriminate]. cbn [app grun] in H. destruct (gstep (s_w s) (OSetState n _)) as [w1|] eqn:S1; [|discriminate].
    destruct (gstep w1 (ONewFactor _ _ _ _ _ _ _)) as [w2|] eqn:S2; [|discriminate]. destruct (gstep w2 (OAddFactor _)) as [w3|] eqn:S3; [|discriminate]. injection H as <-. cbn [with_world s_w].
    cbn [gstep] in S1, S2, S3. destruct (add_factor w2 _) as [[w4 k]|] eqn:A; [|discriminate]. injection S3 as <-. rewrite (add_new_states _ _ _ _ S2 _ _ A). destruct (set_states _ _ _ _ S1) as [GN ST].
    destruct (get_nodes_nth _ _ _ _ _ G EN) as (i & EI & ELI). exists i, (map (state_of (s_w s)) ls). split; [exact EI|]. split; [exact (get_nodes_states _ _ _ G)|]. rewrite !estimated_map, GN. split.
    + erewrite map_nth_error by exact ELI. rewrite ST, Nat.eqb_refl. reflexivity.
    + intros j J. rewrite !nth_error_map. destruct (nth_error (g_nodes (w_graph (s_w s))) j) as [l|] eqn:EJ; [|reflexivity]. cbn [option_map]. rewrite ST. destruct (Nat.eqb_spec l n) as [-> | N]; [|reflexivity].
      exfalso. apply J. eapply (proj1 (NoDup_nth_error _) (gd_nodup _ D)); [apply nth_error_Some; congruence | congruence].
  - cbn [app grun] in H. destruct (gstep (s_w s) (ONewFactor _ _ _ _ _ _ _)) as [w2|] eqn:S2; [|discriminate]. destruct (gstep w2 (OAddFactor _)) as [w3|] eqn:S3; [|discriminate]. injection H as <-. cbn [with_world s_w].
    cbn [gstep] in S2, S3. destruct (add_factor w2 _) as [[w4 k]|] eqn:A; [|discriminate]. injection S3 as <-. exact (add_new_states _ _ _ _ S2 _ _ A).
Qed.
Print Assumptions C75_add_factor.
(** chi2 changes no state; solve keeps the number of states and those of the
    anchors. *)
Theorem C75_chi2_solve : forall lin rob ops s, pyclean lin rob (solver_new world_new) ops -> pyrun lin rob (solver_new world_new) ops = Some s ->
  (forall flag s', pystep lin rob s (PyChi2 flag) = Some s' -> get_estimated_state (s_w s') = get_estimated_state (s_w s)) /\
  (forall m k la tol s', pystep lin rob s (PySolve m k la tol) = Some s' -> length (get_estimated_state (s_w s')) = length (get_estimated_state (s_w s)) /\
     forall i l, get_node (s_w s) i = Some l -> n_mode (nd (s_w s) l) = ANCHOR -> nth_error (get_estimated_state (s_w s')) i = nth_error (get_estimated_state (s_w s)) i).
Proof.
  intros lin rob ops s C E. destruct (pyclean_run lin rob ops (solver_new world_new) good_new C) as (s0 & E0 & D). rewrite E in E0. injection E0 as <-. split.
  - intros flag s' H. cbn [pystep] in H. injection H as <-. destruct (chi2_fst (s_w s) flag) as [SK N]. cbn [with_world s_w]. rewrite !estimated_map, (sk_graph _ _ SK). apply map_ext. intros j. unfold state_of. rewrite (nd_same _ (s_w s)) by exact N. reflexivity.
  - intros m k la tol s' H. cbn [pystep] in H. destruct (solve_frame _ _ _ _ _ _ _ H) as (SK & N & _). split; [rewrite !estimated_map, !map_length, (sk_graph _ _ SK); reflexivity|].
    intros i l EI A. rewrite !estimated_map, (sk_graph _ _ SK). unfold get_node in EI. rewrite !(map_nth_error _ _ _ EI). unfold state_of. rewrite N; [reflexivity|]. intros I. destruct (wf_active _ (gd_wf _ D) l I). contradiction.
Qed.
Print Assumptions C75_chi2_solve.
(** *** Cached numbers
    After a Gauss-Newton solve get_chi2_array (and chi2(false), its sum: C39) is
    that of the state before the step. After Levenberg-Marquardt it is that of
    the state that is kept, unless the last step was rejected: then its sum is
    too large. *)
Lemma res_at_skel_chi2 w w' l : skel w w' -> w_nodes w' = w_nodes w -> fchi2 w' l = fchi2 w l.
Proof. intros S E. apply (res_at_skel w w' l S). intros n. rewrite (nd_same w' w); auto. Qed.
Lemma gn_fchi2 lin u s s1 : valid_factors (s_w s) -> optimize_gauss_newton lin u s = Some s1 ->
  forall l, In l (g_factors (w_graph (s_w s))) -> f_chi2 (fa (s_w s1) l) = fchi2 (s_w s) l.
Proof.
  intros V E l I. unfold optimize_gauss_newton, build_problem in E. destruct (build_adjacency s) as [s'|] eqn:Eb; [|discriminate].
  assert (X : s_w s1 = s_w s') by (injection E as <-; destruct u; reflexivity). rewrite X. clear E X.
  unfold build_adjacency in Eb. destruct (index_nodes (s_w s)) as [m N]. destruct (negb _); [discriminate|].
  destruct (sp_insert_all _ _ _ _); [|discriminate]. destruct (sp_insert_all _ _ _ _); [|discriminate]. injection Eb as <-. cbn [s_w].
  set (w1 := eval_factors (s_w s)). destruct (eval_weights_spec w1 (g_factors (w_graph w1))) as (_ & _ & _ & E4). rewrite E4.
  destruct (eval_factors_spec (s_w s)) as (_ & _ & _ & D). fold w1 in D.
  assert (F : f_chi2 (fa w1 l) = fchi2 (s_w s) l).
  { rewrite D. pose proof (V l I) as L. apply Nat.ltb_lt in L. apply mem_In in I. rewrite I, L. reflexivity. }
  destruct (andb _ _); auto. unfold weightG. destruct (Nat.eqb _ 0); auto.
Qed.
Lemma lm_iter_fchi2 lin s s' e : valid_factors (s_w s) -> lm_iter lin s = Some (s', e) -> e <> Rejected ->
  forall l, In l (g_factors (w_graph (s_w s))) -> f_chi2 (fa (s_w s') l) = fchi2 (s_w s') l.
Proof.
  intros V H NR l I. unfold lm_iter in H. destruct (optimize_gauss_newton lin true s) as [s1|] eqn:E; [|discriminate].
  destruct (gn_frame _ _ _ _ E) as (S1 & N1 & _ & T1). rewrite chi2_false in H. cbn [with_world s_w update_nodes] in H.
  destruct (sync_aux_spec (s_w s1)) as (S2 & _). set (w2 := sync_aux (s_w s1)) in *.
  change (s_dx (with_world s1 w2)) with (s_dx s1) in H. destruct (update_nodes_spec w2 (s_dx s1)) as (S3 & _). set (w3 := update_nodes_w w2 (s_dx s1)) in *.
  assert (SK3 : skel (s_w s) w3) by (eapply skel_trans; [|exact S3]; eapply skel_trans; eauto).
  assert (V3 : valid_factors w3) by (intros j; rewrite (sk_graph _ _ SK3), (sk_flen _ _ SK3); apply V).
  rewrite (chi2_true _ V3) in H. destruct (chi2_world_spec w3) as (N4 & _ & _ & D4). pose proof (skel_chi2 w3) as S4. set (w4 := fold_left _ _ w3) in *.
  assert (C : f_chi2 (fa w4 l) = fchi2 w4 l).
  { rewrite (res_at_skel_chi2 w3 w4 l S4 N4). rewrite D4. rewrite <- (sk_graph _ _ SK3) in I. pose proof (V3 l I) as L. apply Nat.ltb_lt in L. apply mem_In in I. rewrite I, L. reflexivity. }
  destruct (Rltb _ 0); [injection H as <- <-; congruence|]. destruct (Rltb _ _); injection H as <- <-; exact C.
Qed.
Lemma iters_last lin es e s s' : iters lin (es ++ [e]) s s' -> exists s0, iters lin es s s0 /\ lm_iter lin s0 = Some (s', e).
Proof.
  revert s. induction es as [|a es IH]; intros s H; cbn [app] in H.
  - inversion H as [|? s1 ? ? ? H1 H2]; subst. inversion H2; subst. exists s. split; [constructor | exact H1].
  - inversion H as [|? s1 ? ? ? H1 H2]; subst. destruct (IH s1 H2) as (s0 & A & B). exists s0. split; [econstructor; eauto | exact B].
Qed.
Lemma iters_skel lin es s s' : iters lin es s s' -> skel (s_w s) (s_w s').
Proof. induction 1; [apply skel_refl|]. destruct (lm_iter_frame _ _ _ _ H) as (SK & _). eapply skel_trans; eauto. Qed.
Theorem C75_cached : forall lin m k la tol s s', wf (s_w s) -> wrap_ok (s_w s) -> solve lin m k la tol s = Some s' ->
  match m with
  | GN => get_chi2_array (s_w s') = map (fchi2 (s_w s)) (g_factors (w_graph (s_w s)))
  | LM => get_chi2_array (s_w s') = map (fchi2 (s_w s')) (g_factors (w_graph (s_w s))) \/ chi2_of (s_w s') < lsum (get_chi2_array (s_w s')) (fun x => x)
  end.
Proof.
  intros lin m k la tol s s' H O E. assert (V : valid_factors (s_w s)) by (intros l I; apply (wf_factors _ H l I)). destruct (solve_frame _ _ _ _ _ _ _ E) as (SK & _). unfold solve in E. destruct m.
  - destruct (optimize_gauss_newton lin false (with_tol (with_lambda s la) tol)) as [s1|] eqn:G; [|discriminate]. cbn [option_map] in E. injection E as <-.
    unfold get_chi2_array. rewrite (sk_graph _ _ SK). apply map_ext_in. intros l I. unfold update_nodes; cbn [with_world s_w].
    destruct (update_nodes_spec (s_w s1) (s_dx s1)) as (_ & F & _). unfold fa. rewrite F. exact (gn_fchi2 lin false (with_tol (with_lambda s la) tol) s1 V G l I).
  - destruct (optimize_levenberg_marquardt lin k (with_tol (with_lambda s la) tol)) as [[s1 j]|] eqn:G; [|discriminate]. cbn [option_map fst] in E. injection E as <-.
    unfold optimize_levenberg_marquardt in G. apply lm_loop_spec in G; [|lia]. destruct G as (es & e & I & _). apply iters_last in I. destruct I as (s0 & I & L).
    pose proof (iters_skel _ _ _ _ I) as SK0. change (s_w (with_lambda (with_tol (with_lambda s la) tol) (1 / 100000))) with (s_w s) in SK0.
    assert (V0 : valid_factors (s_w s0)) by (intros l; rewrite (sk_graph _ _ SK0), (sk_flen _ _ SK0); apply V).
    destruct (iters_chi2 lin es (with_lambda (with_tol (with_lambda s la) tol) (1 / 100000)) s0 V O I) as [_ O0].
    assert (K : e <> Rejected -> get_chi2_array (s_w s1) = map (fchi2 (s_w s1)) (g_factors (w_graph (s_w s)))).
    { intros NR. unfold get_chi2_array. rewrite (sk_graph _ _ SK). apply map_ext_in. intros l J. rewrite <- (sk_graph _ _ SK0) in J. exact (lm_iter_fchi2 lin s0 s1 e V0 L NR l J). }
    destruct e; [| |left; apply K; discriminate]; try (left; apply K; discriminate). right. exact (C39_stale_after_rejection lin s0 s1 V0 O0 L).
Qed.
Print Assumptions C75_cached.
(** so chi2(false) after solve is not the chi2 of the solution: here it is 16, the
    solution has 0 *)
Theorem C75_chi2_after_solve_refuted : exists lin s s', wf (s_w s) /\ solve lin GN 1 0 0 s = Some s' /\ snd (chi2 false (s_w s')) = 16 /\ snd (chi2 true (s_w s')) = 0.
Proof.
  exists (fun _ _ _ _ => 4), (solver_new prior). destruct (solve_total (fun _ _ _ _ => 4) GN 1 0 0 (solver_new prior) prior_wf) as (s' & E). exists s'. split; [exact prior_wf|]. split; [exact E|].
  assert (O : wrap_ok prior) by (left; intros l [<-|[]]; reflexivity).
  pose proof (C75_cached (fun _ _ _ _ => 4) GN 1 0 0 (solver_new prior) s' prior_wf O E) as C. cbn [s_w solver_new] in C. destruct (solve_frame _ _ _ _ _ _ _ E) as (SK & _).
  split.
  - rewrite (proj2 (C39_cached _)), C. rewrite lsum_map. change (lsum (g_factors (w_graph prior)) (fun l => fchi2 prior l)) with (chi2_of prior). rewrite (prior_chi2 prior 5 6 (skel_refl _) eq_refl). field.
  - assert (V : valid_factors (s_w s')) by (intros l; rewrite (sk_graph _ _ SK), (sk_flen _ _ SK); intros [<-|[]]; cbn; lia). rewrite (chi2_true _ V). cbn [snd].
    assert (X : nst (n_data (nd (s_w s') 0)) = L2 (5 + - 4) (6 + - 4)).
    { unfold solve in E. destruct (optimize_gauss_newton _ _ _) as [s1|] eqn:G; [|discriminate]. cbn [option_map] in E. injection E as <-.
      assert (Dx : s_dx s1 = fun _ => 4). { unfold optimize_gauss_newton in G. destruct (build_problem _ _); [|discriminate]. injection G as <-. reflexivity. }
      destruct (gn_frame _ _ _ _ G) as (SK1 & N1 & _). cbn [with_tol with_lambda s_w solver_new] in SK1, N1.
      pose proof (gn_updates (s_w s1) (s_dx s1) 0 0 (skel_wf _ _ SK1 prior_wf)) as U. rewrite (sk_graph _ _ SK1) in U. specialize (U eq_refl). unfold update_nodes; cbn [with_world s_w]. rewrite U. cbn [nst].
      unfold increments. rewrite (nd_same (s_w s1) prior 0 N1), Dx. reflexivity. }
    rewrite (prior_chi2 _ _ _ SK X). field.
Qed.
Print Assumptions C75_chi2_after_solve_refuted.

(** *** Examples *)
Definition read_ops : list pyop :=
  [PyNode ANCHOR (L2 1 2); PyNode STANDARD (L2 5 6); PyFactor (mkFC 2 4 pose_res pose_jac None) [0%nat; 1%nat] id_mat].
Definition read_class : fclass := mkFC 2 4 pose_res pose_jac (Some (1%nat, fun vs => nth 0 vs (L2 0 0))).
Example C75_ex : exists s, pyclean (fun _ _ b => b) HUBER (solver_new world_new) read_ops /\ pyrun (fun _ _ b => b) HUBER (solver_new world_new) read_ops = Some s /\
  get_estimated_state (s_w s) = [L2 1 2; L2 5 6] /\
  (exists s', pystep (fun _ _ b => b) HUBER s (PyNode STANDARD (L2 3 4)) = Some s') /\
  (exists s', pystep (fun _ _ b => b) HUBER s (PyFactor read_class [0%nat; 1%nat] id_mat) = Some s' /\ get_estimated_state (s_w s') = [L2 1 2; L2 1 2]) /\
  exists s', pystep (fun _ _ b => b) HUBER s (PySolve LM 5 0 0) = Some s'.
Proof.
  assert (C : pyclean (fun _ _ b => b) HUBER (solver_new world_new) read_ops).
  { unfold read_ops. cbn [pyclean pyclean1]. split; [discriminate|]. intros s1 E1. cbn in E1. injection E1 as <-. split; [discriminate|]. intros s2 E2. cbn in E2. injection E2 as <-. split; [|auto]. cbn. repeat constructor; cbn; intuition lia. }
  destruct (pyclean_run _ _ _ (solver_new world_new) good_new C) as (s & E & D). exists s. split; [exact C|]. split; [exact E|].
  cbn in E. injection E as <-. split; [reflexivity|]. split; [eexists; cbn; reflexivity|]. split; [eexists; split; cbn; reflexivity|]. cbn [pystep]. apply solve_total. exact (gd_wf _ D).
Qed.
