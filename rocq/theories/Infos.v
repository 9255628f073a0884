(** What informations mean (C88). *)
Require Import Reals List Arith Lia Lra Bool Permutation.
From Verif Require Import Lin SO3 LinFacts SpecGeom Angle AngleProofs Nodes Robust Graph GraphProofs Sums Solve SpecSolve SolveIndex SolveFrame SolveSums SolveBuild SolveProofs Session SessionProofs.
From Verif Require Import Factors SpecFactors FactorsSession SpecFrame FrameFactors FrameSolve SpecSolvable SpecMapping SolvableSession DenseProofs MappingSession LMMapping SpecReorder Reorder ReorderSolve SpecFixed Fixed SpecTree Tree SpecParts Parts SpecInfos.
Import ListNotations.
Local Open Scope R_scope.
Local Arguments nd : simpl never.
Local Arguments fa : simpl never.

(** ** measurements without information *)
Lemma info_call c cl ids W : call_factor c = Some (cl, ids, W) -> W = info_of c.
Proof. unfold call_factor. destruct c; cbn [pycall_op info_of]; try destruct (_ <? _)%nat; intros E; try discriminate; injection E; auto. Qed.
Lemma quad_none n W x y : (forall i j, W i j = 0) -> quad n W x y = 0.
Proof. intros H. unfold quad. apply sumn_zero. intros i _. apply sumn_zero. intros j _. rewrite H. ring. Qed.
Lemma ignored_costs rob a b o : Forall uninformed o -> Permutation (a ++ o) b -> equal_costs rob a b.
Proof.
  intros U H. rewrite Forall_forall in U.
  assert (Z : forall F, (forall cl ids W, (forall i j, W i j = 0) -> F (cl, ids, W) = 0) -> lsum a (lift F) = lsum b (lift F)).
  { intros F HF. rewrite <- (lsum_perm _ _ _ H), lsum_app, (lsum_zero o); [ring|]. intros c I. unfold lift. destruct (call_factor c) as [[[cl ids] W]|] eqn:E; auto. apply HF. rewrite (info_call _ _ _ _ E). apply U, I. }
  intros st. split; [|intros d; split; [|intros e]]; apply Z; intros cl ids W Hz; unfold f_c, f_g, f_f; rewrite !(quad_none _ _ _ _ Hz); ring.
Qed.

(** ** all informations times a factor *)
Lemma rescale_call a c : call_factor (rescale a c) = match call_factor c with Some (cl, ids, W) => Some (cl, ids, fun i j => a * W i j) | None => None end.
Proof. unfold call_factor, rescale. destruct c; cbn [with_info pycall_op info_of]; try destruct (_ <? _)%nat; reflexivity. Qed.
Lemma rescale_nodes a cs : nodes_of (map (rescale a) cs) = nodes_of cs.
Proof. unfold nodes_of. induction cs as [|c r IH]; auto. cbn [map flat_map]. rewrite IH. destruct c; reflexivity. Qed.
Lemma rescale_typed a cs : forall ks, typed ks cs -> typed ks (map (rescale a) cs).
Proof. induction cs as [|c r IH]; intros ks H; auto. destruct H as [H1 H2]. cbn [map typed]. split; [destruct c; exact H1|]. replace (kinds_after ks (rescale a c)) with (kinds_after ks c) by (destruct c; reflexivity). auto. Qed.
Lemma quad_times n a W x y : quad n (fun i j => a * W i j) x y = a * quad n W x y.
Proof. unfold quad. rewrite <- sumn_scal. apply sumn_ext. intros i _. rewrite <- sumn_scal. apply sumn_ext. intros j _. ring. Qed.
Lemma rescale_info a cs : 0 <= a -> Forall call_info cs -> Forall call_info (map (rescale a) cs).
Proof.
  intros Ha H. rewrite Forall_forall in *. intros c I. apply in_map_iff in I. destruct I as (c0 & <- & I). specialize (H c0 I). unfold call_info in *. rewrite rescale_call. destruct (call_factor c0) as [[[cl ids] W]|]; auto.
  destruct H as [Sy Ps]. split; [intros i j Hi Hj; rewrite (Sy i j Hi Hj); reflexivity|]. intros x. rewrite quad_times. apply Rmult_le_pos; auto.
Qed.
Section Scale.
Variables (a : R) (cs : list pycall) (w w' : world).
Hypothesis (Ha : 0 < a) (P : Forall call_info cs) (V : inv QUADRATIC cs w) (V' : inv QUADRATIC (map (rescale a) cs) w').
Let n := length (nodes_of cs).
Hypothesis (St : forall i, (i < n)%nat -> state_of w' i = state_of w i).
Let P' : Forall call_info (map (rescale a) cs). Proof. apply rescale_info; auto. lra. Qed.
Let NR : QUADRATIC <> RANSAC. Proof. discriminate. Qed.
Lemma scaled_sums F F' : (forall cl ids W, alike (fun i => i) n (state_of w) (state_of w') (cl, ids, W) (cl, ids, W) -> F' (cl, ids, fun i j => a * W i j) = a * F (cl, ids, W)) ->
  lsum (flat_map facts (map (rescale a) cs)) F' = a * lsum (flat_map facts cs) F.
Proof using V St.
  intros H. rewrite !lift_facts, lsum_map, <- lsum_scal. apply lsum_ext. intros c Ic. unfold lift. rewrite rescale_call. destruct (call_factor c) as [[[cl ids] W]|] eqn:Ec; [|ring]. apply H.
  rewrite <- (map_id ids) at 2. apply (alike_class (fun i => i)); [exact St|]. apply (ids_below QUADRATIC cs w c cl ids W V Ic Ec).
Qed.
Lemma scaled_chi2 : chi2_of w' = a * chi2_of w.
Proof using V V' St NR.
  rewrite (facts_chi2 QUADRATIC cs w V NR), (facts_chi2 QUADRATIC _ w' V' NR). apply scaled_sums. intros cl ids W Al. rewrite <- (proj1 (alike_costs _ _ _ _ QUADRATIC _ _ Al)). unfold f_c. rewrite quad_times. ring.
Qed.
Lemma scaled_rhs z z' : agree_d (fun i => i) n (state_of w) (inc_of w z) (inc_of w' z') -> gn_rhs w' z' = a * gn_rhs w z.
Proof using P V V' St P' NR.
  intros Az. rewrite (facts_rhs QUADRATIC cs w V P NR), (facts_rhs QUADRATIC _ w' V' P' NR). apply scaled_sums. intros cl ids W Al. rewrite <- (proj1 (proj2 (alike_costs _ _ _ _ QUADRATIC _ _ Al) _ _ Az)). unfold f_g, f_w. cbn [robust_eval]. rewrite quad_times. ring.
Qed.
Lemma scaled_form z z' d d' : agree_d (fun i => i) n (state_of w) (inc_of w z) (inc_of w' z') -> agree_d (fun i => i) n (state_of w) (inc_of w d) (inc_of w' d') -> gn_form w' z' d' = a * gn_form w z d.
Proof using P V V' St P' NR.
  intros Az Ad. rewrite (facts_form QUADRATIC cs w V P NR), (facts_form QUADRATIC _ w' V' P' NR). apply scaled_sums. intros cl ids W Al. rewrite <- (proj2 (proj2 (alike_costs _ _ _ _ QUADRATIC _ _ Al) _ _ Az) _ _ Ad). unfold f_f, f_w. cbn [robust_eval]. rewrite quad_times. ring.
Qed.
Lemma scaled_back z' : exists z, agree_d (fun i => i) n (state_of w) (inc_of w z) (inc_of w' z').
Proof using V V'.
  destruct (dir_vector QUADRATIC cs w (inc_of w' z') V) as [z Z]. { intros i v k Ei. apply (anchor_inc QUADRATIC (map (rescale a) cs) w' i v z' k V'). rewrite rescale_nodes. exact Ei. }
  exists z. intros i k Hi Hk. symmetry. apply Z; auto.
Qed.
Lemma scaled_there z : exists z', agree_d (fun i => i) n (state_of w) (inc_of w z) (inc_of w' z').
Proof using V V' St.
  destruct (dir_vector QUADRATIC (map (rescale a) cs) w' (inc_of w z) V') as [z' Z]. { intros i v k Ei. rewrite rescale_nodes in Ei. apply (anchor_inc QUADRATIC cs w i v z k V Ei). }
  exists z'. intros i k Hi Hk. apply Z; [rewrite rescale_nodes; exact Hi|rewrite St by exact Hi; exact Hk].
Qed.
Lemma scaled_one : one_step 0 w -> one_step 0 w'.
Proof using Ha P V V' St P' NR.
  intros On x Zx. destruct (scaled_back x) as (z & Az). rewrite (scaled_form _ _ _ _ Az Az) in Zx.
  assert (Z : same_below (g_stateDim (w_graph w)) z (fun _ => 0)) by (intros i Hi; apply On; auto; nra).
  apply (inc_below QUADRATIC (map (rescale a) cs) w' V' x (fun _ => 0)). rewrite rescale_nodes. intros i k Hi Hk. rewrite St in Hk by exact Hi. rewrite (Az i k Hi Hk), (below_inc QUADRATIC cs w V z (fun _ => 0) i k Z Hi Hk).
  unfold inc_of. destruct (get_node w i), (get_node w' i); unfold increments; repeat destruct (is_anchor _); reflexivity.
Qed.
End Scale.
Lemma scaled_solved lin a cs k la tol s s' t t' : exact lin -> 0 < a -> Forall call_info cs -> inv QUADRATIC cs (s_w s) -> inv QUADRATIC (map (rescale a) cs) (s_w s') -> one_step 0 (s_w s) ->
  (forall i, (i < length (nodes_of cs))%nat -> state_of (s_w s') i = state_of (s_w s) i) -> solve lin GN k la tol s = Some t -> solve lin GN k la tol s' = Some t' ->
  forall i, (i < length (nodes_of cs))%nat -> state_of (s_w t') i = state_of (s_w t) i.
Proof.
  intros X Ha P V V' On St E E' i Hi. pose proof (scaled_one a cs _ _ Ha P V V' St On) as On'.
  destruct (gn_node lin QUADRATIC cs k la tol s t X V On E) as (d & Ed & U). destruct (gn_node lin QUADRATIC _ k la tol s' t' X V' On' E') as (d' & Ed' & U').
  destruct (scaled_back a cs _ _ V V' d') as (y & Ay).
  assert (Sb : same_below (g_stateDim (w_graph (s_w s))) d y).
  { apply (step_unique 0 s d y (gd_wf _ (iv_good _ _ _ V)) On). intros z. destruct (scaled_there a cs _ _ V V' St z) as (z' & Az). specialize (Ed' z'). rewrite (scaled_rhs a cs _ _ Ha P V V' St z z' Az), (scaled_form a cs _ _ Ha P V V' St z z' y d' Az Ay) in Ed'.
    apply Rmult_eq_reg_l in Ed'; [|lra]. rewrite <- Ed, Ed'. ring. }
  destruct (nth_error (nodes_of cs) i) as [[m v]|] eqn:Ei; [|apply nth_error_None in Ei; lia].
  rewrite (U i m v Ei), (U' i m v) by (rewrite rescale_nodes; exact Ei). rewrite (St i Hi).
  assert (N : val_update (state_of (s_w s) i) (fun j => - inc_of (s_w s') d' i j) = val_update (state_of (s_w s) i) (fun j => - inc_of (s_w s) d i j)); [|destruct m; auto].
  apply val_update_ext. intros j Hj. f_equal. rewrite (below_inc QUADRATIC cs _ V d y i j Sb Hi Hj). apply Ay; auto.
Qed.
