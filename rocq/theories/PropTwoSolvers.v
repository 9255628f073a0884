(** C76: the sparse and the dense solver compared. *)
Require Import Reals List Arith Lia Lra.
From Verif Require Import Nodes Robust Graph GraphProofs Sums Solve SpecSolve SolveIndex SolveFrame SolveBuild SolveSums SolveProofs Optimizer OptimizerProofs Dense SpecDense DenseProofs PropSolve PropDense.
Import ListNotations.
Local Open Scope R_scope.
Local Arguments nd : simpl never.
Local Arguments fa : simpl never.

(** every node counts, every factor is quadratic and joins k nodes *)
Record plain (k : nat) (w : world) : Prop := {
  pl_wf : wf w; pl_dwf : dwf w; pl_active : g_active (w_graph w) = g_nodes (w_graph w); pl_sym : sym_infos w;
  pl_factor : forall f, In f (g_factors (w_graph w)) -> f_rob (fa w f) = QUADRATIC /\ length (f_nodes (fa w f)) = k;
  pl_dims : forall l, In l (g_nodes (w_graph w)) -> n_dim (nd w l) = nval_dim (nst (n_data (nd w l))) }.

Lemma plain_inc k w x f : plain k w -> In f (g_factors (w_graph w)) -> forall i, jac_times w f (increments w x) i = jac_times w f (dinc w x) i.
Proof.
  intros P I i. apply jac_dir_ext. intros n j In_ Hj. unfold increments, dinc, col. rewrite (pl_active _ _ P).
  assert (A : In n (g_active (w_graph w))) by (rewrite (pl_active _ _ P); exact (d_neigh _ (pl_dwf _ _ P) f n I In_)).
  destruct (wf_active _ (pl_wf _ _ P) n A) as [_ NA]. apply is_anchor_false in NA. rewrite NA. reflexivity.
Qed.
Lemma plain_weight k w f : plain k w -> In f (g_factors (w_graph w)) -> weight_at w f = 1.
Proof. intros P I. unfold weight_at. destruct (pl_factor _ _ P f I) as [-> _]. reflexivity. Qed.
(** a symmetric matrix with a right inverse is injective *)
Lemma inverse_unique n H K x y : (forall i j, (i < n)%nat -> (j < n)%nat -> H i j = H j i) -> right_inverse n H K ->
  (forall i, (i < n)%nat -> sumn n (fun j => H i j * x j) = sumn n (fun j => H i j * y j)) -> forall i, (i < n)%nat -> x i = y i.
Proof.
  intros S RI E. assert (X : forall z i, (i < n)%nat -> z i = sumn n (fun k => K k i * sumn n (fun j => H k j * z j))).
  { intros z i Hi. rewrite (sumn_ext n _ (fun k => sumn n (fun j => K k i * H k j * z j))). 2:{ intros k _. rewrite sumn_mult_l. apply sumn_ext. intros; ring. }
    rewrite sumn_swap. rewrite (sumn_ext n _ (fun j => delta j i * z j)).
    2:{ intros j Hj. rewrite sumn_scal_r. f_equal. rewrite <- (RI j i Hj Hi). apply sumn_ext. intros k Hk. rewrite (S k j) by auto. ring. }
    rewrite (sumn_single n i); auto. { unfold delta. rewrite Nat.eqb_refl. ring. } intros j _ N. unfold delta. destruct (Nat.eqb_spec j i); [congruence | ring]. }
  intros i Hi. rewrite (X x i Hi), (X y i Hi). apply sumn_ext. intros k Hk. rewrite (E k Hk). reflexivity.
Qed.

(** In such graphs the two solvers have the same matrix, and the right-hand side
    of the dense one is k times that of the sparse one: with exact linear algebra
    the dense step is k times the sparse step (which is applied with a minus
    sign), Gauss-Newton or spherically damped with the same lambda. *)
Theorem C76_step : forall k u lin inv s s1 o o', plain k (s_w s) -> o_x o = s_w s ->
  (u = true -> o_method o = LM_SPHER /\ o_lambda o = s_lambda s) ->
  optimize_gauss_newton lin u s = Some s1 -> one_iteration dense inv u o = Some o' ->
  (forall i, (i < g_stateDim (w_graph (s_w s)))%nat -> sumn (g_stateDim (w_graph (s_w s))) (fun j => s_L s1 i j * s_dx s1 j) = s_b s1 i) ->
  right_inverse (o_n o') (o_hess o') (inv (o_n o') (o_hess o')) ->
  o_n o' = g_stateDim (w_graph (s_w s)) /\
  (forall i j, (i < o_n o')%nat -> (j < o_n o')%nat -> o_hess o' i j = s_L s1 i j) /\
  forall i, (i < o_n o')%nat -> o_grad o' i = INR k * s_b s1 i /\ o_dx o' i = - (INR k * s_dx s1 i).
Proof.
  intros k u lin inv s s1 o o' P Ex Hu G O EL RI. destruct (one_iteration_spec _ _ _ _ _ O) as (x1 & H & EG & _ & EH & ES). specialize (ES RI). rewrite Ex in EG.
  destruct (dense_gh_spec _ (pl_dwf _ _ P)) as (w' & g & H1 & E1 & _ & _ & QG & QH). cbn [calculate_gradient_hessian dense] in EG. rewrite EG in E1. injection E1 as -> EN EGr EHe. rewrite EN in *. rewrite EGr in *. rewrite EHe in *.
  set (n := g_stateDim (w_graph (s_w s))) in *. set (w := s_w s) in *.
  destruct (gn_ok lin u s (pl_wf _ _ P)) as (s1' & s' & EA & B & G' & _ & Eb & EL0 & EL1 & _). rewrite G in G'. injection G' as <-.
  assert (Bp : build_problem false s = Some (build_info_adjacency s')) by (unfold build_problem; rewrite EA; reflexivity).
  assert (ML : forall i j, (i < n)%nat -> (j < n)%nat -> H1 i j = s_L (build_info_adjacency s') i j).
  { intros i j Hi Hj. rewrite <- (unit_form n H1 i j Hi Hj), <- (unit_form n (s_L (build_info_adjacency s')) i j Hi Hj). rewrite form_quad, QH. unfold form.
    rewrite (proj1 (C33_normal_equations s _ _ _ (pl_wf _ _ P) (pl_sym _ _ P) Bp)). apply lsum_ext. intros f If. fold w. rewrite (plain_weight k w f P If), Rmult_1_l.
    apply quad_ext; intros; symmetry; apply (plain_inc k w _ f P If). }
  assert (MB : forall i, (i < n)%nat -> g i = INR k * s_b s1 i).
  { intros i Hi. rewrite Eb. assert (X : forall v : vec, sumn n (fun j => delta i j * v j) = v i).
    { intros v. rewrite (sumn_single n i); auto. unfold delta. rewrite Nat.eqb_refl. ring. intros j _ N. unfold delta. destruct (Nat.eqb_spec i j); [congruence | ring]. }
    specialize (QG (delta i)). unfold vdot in QG. rewrite X in QG. rewrite QG.
    pose proof (proj1 (proj2 (C33_normal_equations s _ (delta i) (delta i) (pl_wf _ _ P) (pl_sym _ _ P) Bp))) as Y. fold w in Y. fold n in Y.
    rewrite (sumn_ext n _ (fun j => delta i j * s_b (build_info_adjacency s') j)) in Y by (intros; ring). rewrite X in Y. rewrite Y. rewrite <- lsum_scal. apply lsum_ext. intros f If.
    unfold arity. rewrite (proj2 (pl_factor _ _ P f If)), (plain_weight k w f P If), Rmult_1_l. f_equal. apply quad_ext; intros; [symmetry; apply (plain_inc k w _ f P If) | reflexivity]. }
  assert (MH : forall i j, (i < n)%nat -> (j < n)%nat -> o_hess o' i j = s_L s1 i j).
  { intros i j Hi Hj. rewrite EH, (ML i j Hi Hj). destruct u.
    - destruct (Hu eq_refl) as [-> ->]. rewrite (EL1 eq_refl i j Hi). unfold delta. destruct (Nat.eqb i j); ring.
    - rewrite (EL0 eq_refl). ring. }
  split; [reflexivity|]. split; [exact MH|]. intros i Hi. split; [exact (MB i Hi)|].
  apply (inverse_unique n (o_hess o') (inv n (o_hess o')) (o_dx o') (fun j => - (INR k * s_dx s1 j))); auto.
  - intros a b Ha Hb. rewrite !EH, !(ML) by auto. pose proof (proj1 (proj2 (proj2 (C33_normal_equations s _ (fun _ => 0) (fun _ => 0) (pl_wf _ _ P) (pl_sym _ _ P) Bp))) a b Ha Hb) as Y. rewrite Y.
    destruct u; [|reflexivity]. destruct (Hu eq_refl) as [-> _]. unfold delta. rewrite (Nat.eqb_sym a b). reflexivity.
  - intros a Ha. rewrite (ES a Ha), (MB a Ha), <- (EL a Ha). rewrite <- sumn_scal, <- sumn_opp. apply sumn_ext. intros j Hj. rewrite (MH a j Ha Hj). ring.
Qed.
Print Assumptions C76_step.

Lemma val_update_ext v f g : (forall k, (k < nval_dim v)%nat -> f k = g k) -> val_update v f = val_update v g.
Proof. destruct v; cbn [nval_dim]; intros H; cbn [val_update]; unfold dx3, dx4, dx6, dx3; rewrite ?(H 0%nat), ?(H 1%nat), ?(H 2%nat), ?(H 3%nat), ?(H 4%nat), ?(H 5%nat) by lia; reflexivity. Qed.
Lemma before_lt {A} (dim : A -> nat) ls m l k : nth_error ls m = Some l -> (k < dim l)%nat -> (before dim ls m + k < lsumn (map dim ls))%nat.
Proof.
  revert m. induction ls as [|a ls IH]; intros [|m] E Hk; try discriminate; cbn [nth_error] in E.
  - injection E as ->. unfold before. cbn. lia.
  - specialize (IH m E Hk). unfold before in *. cbn [firstn map lsumn]. lia.
Qed.
(** With one-node factors the two solvers move every node to the same state. *)
Theorem C76_one_node_factors : forall lin inv maxIters lambda tol s s' o o', plain 1 (s_w s) -> o_x o = s_w s ->
  solve lin GN maxIters lambda tol s = Some s' -> one_iteration dense inv false o = Some o' ->
  (forall i, (i < g_stateDim (w_graph (s_w s)))%nat -> sumn (g_stateDim (w_graph (s_w s))) (fun j => s_L s' i j * s_dx s' j) = s_b s' i) ->
  right_inverse (o_n o') (o_hess o') (inv (o_n o') (o_hess o')) ->
  forall l, In l (g_nodes (w_graph (s_w s))) -> nst (n_data (nd (s_w s') l)) = nst (n_data (nd (o_x o') l)).
Proof.
  intros lin inv mi la tol s s' o o' P Ex E O EL RI l I. unfold solve in E. destruct (optimize_gauss_newton lin false (with_tol (with_lambda s la) tol)) as [s1|] eqn:G; [|discriminate]. cbn [option_map] in E. injection E as <-.
  destruct (C76_step 1 false lin inv (with_tol (with_lambda s la) tol) s1 o o' P Ex ltac:(discriminate) G O EL RI) as (EN & _ & DX). cbn [with_tol with_lambda s_w] in EN.
  destruct (gn_frame _ _ _ _ G) as (SK & N1 & _). cbn [with_tol with_lambda s_w] in SK, N1. set (w := s_w s) in *.
  destruct (one_iteration_spec _ _ _ _ _ O) as (x1 & H & EG & EU & _). rewrite Ex in EG. fold w in EG.
  destruct (dense_gh_spec _ (pl_dwf _ _ P)) as (w' & g & H1 & E1 & SKw & Nw & _). cbn [calculate_gradient_hessian dense] in EG. rewrite EG in E1. injection E1 as -> _ _ _.
  pose proof (dwf_skel _ _ SKw (pl_dwf _ _ P)) as W'.
  destruct (dense_update_spec (o_dx o') (g_nodes (w_graph w')) 0 w') as (w2 & E2 & _ & _ & _ & _ & U).
  { eapply NoDup_map_inv'. apply (d_ids _ W'). } { apply (d_nodes _ W'). } { rewrite (d_state _ W'). lia. }
  cbn [update_state dense] in EU. unfold dense_update in EU. rewrite EU in E2. injection E2 as <-.
  apply In_nth_error in I. destruct I as [m Hm]. pose proof Hm as Hm'. rewrite <- (sk_graph _ _ SKw) in Hm'. rewrite (U m l Hm'). rewrite (nd_same w' w l Nw).
  assert (Ha : nth_error (g_active (w_graph (s_w s1))) m = Some l) by (rewrite (sk_graph _ _ SK), (pl_active _ _ P); exact Hm).
  unfold update_nodes; cbn [with_world s_w]. rewrite (gn_updates (s_w s1) (s_dx s1) m l (skel_wf _ _ SK (pl_wf _ _ P)) Ha). cbn [nst]. rewrite (nd_same (s_w s1) w l N1).
  apply val_update_ext. intros k Hk. rewrite <- (pl_dims _ _ P l (nth_error_In _ _ Hm)) in Hk. unfold increments. rewrite (nd_same (s_w s1) w l N1).
  assert (A : In l (g_active (w_graph w))) by (rewrite (pl_active _ _ P); exact (nth_error_In _ _ Hm)).
  destruct (wf_active _ (pl_wf _ _ P) l A) as [_ NA]. apply is_anchor_false in NA. rewrite NA. unfold col. rewrite (skel_ndim _ _ SK), (skel_ndim _ _ SKw), (sk_graph _ _ SK), (sk_graph _ _ SKw), (pl_active _ _ P).
  rewrite (index_of_unique l (g_nodes (w_graph w)) m); auto. 2:{ rewrite <- (pl_active _ _ P). apply (wf_active_nodup _ (pl_wf _ _ P)). }
  cbn [Nat.add]. pose proof (before_lt (ndim w) _ _ _ _ Hm Hk) as L. rewrite <- (d_state _ (pl_dwf _ _ P)), <- EN in L. rewrite (proj2 (DX _ L)). cbn [INR]. ring.
Qed.
Print Assumptions C76_one_node_factors.
(** In general they do not: with a factor between two nodes, at the minimum of
    the sum of squares the sparse solver has nothing to do, and the dense one
    moves away from it. *)
Lemma dwf_wf w : dwf w -> g_active (w_graph w) = g_nodes (w_graph w) -> (forall l, In l (g_nodes (w_graph w)) -> n_mode (nd w l) <> ANCHOR) ->
  g_obsDim (w_graph w) = lsumn (map (fdim w) (g_factors (w_graph w))) -> wf w.
Proof.
  intros D A M O. constructor; try rewrite A.
  - intros l I. split; [apply (d_nodes _ D); auto | auto].
  - apply (d_ids _ D).
  - apply (d_valid _ D).
  - intros l n I J _. exact (d_neigh _ D l n I J).
  - intros l I. apply NoDup_filter. exact (d_distinct _ D l I).
  - apply (d_state _ D).
  - exact O.
Qed.
Lemma chain_wf a b c d : wf (chain_world a b c d).
Proof.
  apply dwf_wf; [apply chain_dwf | vm_compute; reflexivity | | vm_compute; reflexivity].
  intros l I. assert (X : g_nodes (w_graph (chain_world a b c d)) = [0%nat; 1%nat]) by (vm_compute; reflexivity). rewrite X in I.
  assert (Y : n_mode (nd (chain_world a b c d) l) = STANDARD) by (destruct I as [<-|[<-|[]]]; vm_compute; reflexivity). rewrite Y. discriminate.
Qed.
Lemma delta_sym d : sym_on d delta. Proof. intros i j _ _. unfold delta. rewrite Nat.eqb_sym. reflexivity. Qed.
Lemma chain_sym a b c d : sym_infos (chain_world a b c d).
Proof. intros l I. change (In l [0%nat; 1%nat; 2%nat]) in I. destruct I as [<-|[<-|[<-|[]]]]; apply delta_sym. Qed.
Theorem C76_same_step_refuted : exists w inv o', wf w /\ dwf w /\ sym_infos w /\ g_active (w_graph w) = g_nodes (w_graph w) /\
  (forall f, In f (g_factors (w_graph w)) -> f_rob (fa w f) = QUADRATIC) /\
  (forall lin s1, optimize_gauss_newton lin false (solver_new w) = Some s1 -> forall i, (i < g_stateDim (w_graph w))%nat -> s_b s1 i = 0) /\
  one_iteration dense inv false (opt_new w 0 0) = Some o' /\ right_inverse (o_n o') (o_hess o') (inv (o_n o') (o_hess o')) /\ chi2_of w < chi2_of (o_x o').
Proof.
  destruct C51_optimum_refuted as (inv & w & o' & D & _ & -> & O & RI & L). exists (chain_world 1 0 2 0), inv, o'. split; [apply chain_wf|]. split; [exact D|]. split; [apply chain_sym|].
  split; [reflexivity|]. split. { intros f I. change (In f [0%nat; 1%nat; 2%nat]) in I. destruct I as [<-|[<-|[<-|[]]]]; reflexivity. }
  split; [|auto]. intros lin s1 G i Hi. destruct (gn_ok lin false (solver_new (chain_world 1 0 2 0)) (chain_wf 1 0 2 0)) as (s1' & s' & EA & B & G' & _ & Eb & _). rewrite G in G'. injection G' as <-. rewrite Eb.
  assert (Bp : build_problem false (solver_new (chain_world 1 0 2 0)) = Some (build_info_adjacency s')) by (unfold build_problem; rewrite EA; reflexivity).
  pose proof (proj1 (proj2 (C33_normal_equations (solver_new (chain_world 1 0 2 0)) _ (delta i) (delta i) (chain_wf 1 0 2 0) (chain_sym 1 0 2 0) Bp))) as Y. cbn [s_w solver_new] in Y.
  rewrite (sumn_single _ i) in Y; auto. 2:{ intros j _ N. unfold delta. destruct (Nat.eqb_spec i j); [congruence | ring]. }
  unfold delta in Y at 1. rewrite Nat.eqb_refl, Rmult_1_r in Y. rewrite Y. change (g_stateDim (w_graph (chain_world 1 0 2 0))) with 4%nat in Hi. clear - Hi.
  change (g_factors (w_graph (chain_world 1 0 2 0))) with [0%nat; 1%nat; 2%nat]. rewrite !lsum_cons, lsum_nil. unfold weight_at.
  change (f_rob (fa (chain_world 1 0 2 0) 0)) with QUADRATIC. change (f_rob (fa (chain_world 1 0 2 0) 1)) with QUADRATIC. change (f_rob (fa (chain_world 1 0 2 0) 2)) with QUADRATIC. cbn [robust_eval].
  destruct i as [|[|[|[|]]]]; try lia; rcalc; lra.
Qed.
Print Assumptions C76_same_step_refuted.

(** *** Example: one landmark with a prior *)
Lemma prior_plain : plain 1 prior.
Proof.
  assert (D : dwf prior).
  { eapply (dense_reach [ONewNode STANDARD (L2 5 6); OAddNode 0; ONewFactor 2 2 [0%nat] pose_res pose_jac id_mat QUADRATIC; OAddFactor 0]); [reflexivity | | | |].
    - repeat constructor.
    - cbn. repeat constructor; cbn; intuition discriminate.
    - cbn. repeat constructor; cbn; intuition discriminate.
    - intros f [<-|[]]. cbn. split; [repeat constructor; cbn; intuition discriminate|]. split; [intros x Hx; cbn in *; tauto | reflexivity]. }
  constructor; auto.
  - apply prior_wf.
  - intros l [<-|[]]; apply id_sym.
  - intros f [<-|[]]. split; reflexivity.
  - intros l [<-|[]]. reflexivity.
Qed.
Lemma id_inverse H : (forall i j, (i < 2)%nat -> (j < 2)%nat -> H i j = delta i j) -> right_inverse 2 H delta.
Proof. intros E i j Hi Hj. cbn [sumn]. rewrite !E by lia. destruct i as [|[|]]; try lia; destruct j as [|[|]]; try lia; cbn; ring. Qed.
Example C76_ex : plain 1 prior /\ exists s' o', solve (fun _ _ b => b) GN 1 0 0 (solver_new prior) = Some s' /\
  one_iteration dense (fun _ _ => delta) false (opt_new prior 0 0) = Some o' /\
  (forall i, (i < 2)%nat -> sumn 2 (fun j => s_L s' i j * s_dx s' j) = s_b s' i) /\ right_inverse (o_n o') (o_hess o') delta.
Proof.
  destruct C34_example as (_ & _ & _ & _ & s' & ES & EL). split; [apply prior_plain|]. exists s'. destruct (dense_gh_spec _ (pl_dwf _ _ prior_plain)) as (w' & g & H & E & K & N & G & Q).
  destruct (dense_update_spec (fun i => - sumn 2 (fun j => delta i j * g j)) (g_nodes (w_graph w')) 0 w') as (w2 & E2 & _).
  { eapply NoDup_map_inv'. apply (d_ids _ (dwf_skel _ _ K (pl_dwf _ _ prior_plain))). } { apply (d_nodes _ (dwf_skel _ _ K (pl_dwf _ _ prior_plain))). }
  { rewrite (d_state _ (dwf_skel _ _ K (pl_dwf _ _ prior_plain))). lia. }
  eexists. split; [exact ES|]. split; [|split; [exact EL|]].
  - unfold one_iteration. cbn [calculate_gradient_hessian update_state dense opt_new o_x]. rewrite E. cbv zeta. unfold dense_update. change (g_stateDim (w_graph prior)) with 2%nat. rewrite E2. reflexivity.
  - cbn [o_n o_hess]. change (g_stateDim (w_graph prior)) with 2%nat in *. apply id_inverse. intros i j Hi Hj. cbn [damp andb]. rewrite <- (unit_form 2 H i j Hi Hj). rewrite form_quad, Q.
    change (g_factors (w_graph prior)) with [0%nat]. rewrite lsum_cons, lsum_nil. destruct i as [|[|]]; try lia; destruct j as [|[|]]; try lia; rcalc; ring.
Qed.
