(** States that solving leaves alone (C85). *)
Require Import Reals List Arith Lia Lra Bool.
From Verif Require Import Lin SO3 SE3 LinFacts SpecGeom AngleProofs Nodes NodesProofs Robust Graph GraphProofs Sums Solve SpecSolve SolveIndex SolveFrame SolveSums SolveBuild SolveProofs Session SessionProofs.
From Verif Require Import Factors SpecFactors FactorsSession SpecFrame FrameFactors FrameSolve SpecSolvable SpecMapping SpecReorder SolvableSession DenseProofs MappingSession LMMapping Reorder ReorderSolve SpecFixed SE3Ln Frame3Factors.
Import ListNotations.
Local Open Scope R_scope.
Local Arguments nd : simpl never.
Local Arguments fa : simpl never.

Lemma pull_lift rob st d c : pull rob st d c = lift (f_g rob st d) c.
Proof. unfold pull, lift, f_g, f_w, f_c, f_jd, call_chi2. destruct (call_factor c) as [[[cl ids] W]|]; reflexivity. Qed.
Lemma consistent_balanced rob cs st : consistent cs st -> balanced rob cs st.
Proof.
  intros H d _. apply lsum_zero. intros c I. unfold pull. specialize (H c I). unfold residual_zero, zero_residual in H. destruct (call_factor c) as [[[cl ids] W]|]; auto. specialize (H ltac:(discriminate)).
  rewrite (quad_ext _ _ _ _ (fun i => row_dir (fc_jac cl (map st ids) i) 0 (map st ids) (map d ids)) (fun _ => 0)) by auto. unfold quad. rewrite sumn_zero; [ring|]. intros i _. apply sumn_zero. intros; ring.
Qed.
(** updating by nothing *)
Lemma update_settled v d : (forall k, (k < nval_dim v)%nat -> d k = 0) -> settled v -> val_update v d = v.
Proof.
  intros Z H. rewrite (val_update_ext v d (fun _ => 0)) by auto. destruct v as [x|T|x y|x|p]; cbn [val_update settled] in *.
  - f_equal. destruct x as [a b c]. unfold wrap3, v3add, dx3. cbn in *. rewrite !Rplus_0_r, wrap_angle_id by auto. reflexivity.
  - destruct H as (Rg & th & An & Ra & Ax). f_equal. unfold se3_update_lhs. change (dx6 (fun _ => 0)) with (mkV6 v3zero v3zero). rewrite of_vec_zero. change (se3_of_Rt m3id v3zero) with m4id.
    replace (m4mul m4id T) with T by (destruct T; lin). apply (regenerate_exact T th); auto.
  - f_equal; ring.
  - f_equal. destruct x. unfold v3add, dx3. cbn. f_equal; ring.
  - f_equal. destruct p as [h l]. unfold plane_normalize, v4add, dx4, dx3. cbn [v4h v4l] in *. replace (v3add h (mkV3 0 0 0)) with h by (destruct h; unfold v3add; cbn; f_equal; ring). rewrite normalize_of_unit by auto. f_equal. ring.
Qed.
Section Still.
Variables (lin : linear_solver) (rob : robust_type) (cs : list pycall).
Hypothesis (X : exact lin) (P : Forall call_info cs) (NR : rob <> RANSAC).
Definition at_rest (w : world) : Prop := inv rob cs w /\ balanced rob cs (state_of w) /\ forall i m v, nth_error (nodes_of cs) i = Some (m, v) -> m <> ANCHOR -> settled (state_of w i).
Lemma quiet_rhs w y : inv rob cs w -> balanced rob cs (state_of w) -> gn_rhs w y = 0.
Proof using P NR.
  intros V B. rewrite (facts_rhs rob cs w V P NR), lift_facts. rewrite <- (B (inc_of w y)); [apply lsum_ext; intros; symmetry; apply pull_lift|]. intros i v k E. apply (anchor_inc rob cs w i v y k V E).
Qed.
Lemma rest_rhs w y : at_rest w -> gn_rhs w y = 0.
Proof using P NR. intros (V & B & _). apply quiet_rhs; auto. Qed.
Lemma zero_dot n x : dot n (fun _ => 0) x = 0.
Proof using. unfold dot. apply sumn_zero. intros; ring. Qed.
Lemma rest_dx la s d : at_rest (s_w s) -> one_step la (s_w s) -> (forall y, gn_form (s_w s) y d + la * dot (g_stateDim (w_graph (s_w s))) y d = gn_rhs (s_w s) y) -> forall i, (i < g_stateDim (w_graph (s_w s)))%nat -> d i = 0.
Proof using P NR. intros H On E. apply On. rewrite E. apply rest_rhs. exact H. Qed.
(** a step of length zero *)
Lemma rest_states w w1 d : at_rest w -> (forall i, (i < g_stateDim (w_graph w))%nat -> d i = 0) -> w_graph w1 = w_graph w ->
  (forall l, In l (g_active (w_graph w)) -> nst (n_data (nd w1 l)) = val_update (nst (n_data (nd w l))) (increments w (fun i => - d i) l)) -> (forall l, ~ In l (g_active (w_graph w)) -> nst (n_data (nd w1 l)) = nst (n_data (nd w l))) ->
  state_of w1 = state_of w.
Proof using.
  intros (V & _ & St) Z Gr U O. apply FunctionalExtensionality.functional_extensionality. intros i. unfold state_of, get_node. rewrite Gr. destruct (nth_error (g_nodes (w_graph w)) i) as [l|] eqn:G; auto.
  destruct (in_dec Nat.eq_dec l (g_active (w_graph w))) as [I|I]; [|apply O, I]. rewrite (U l I).
  destruct (act_in rob cs w V l I) as (j & Gj & Ij & Hj & D). assert (Hi : i = j). { destruct (gd_ids _ (iv_good _ _ _ V) i l G) as [_ Q]. congruence. } rewrite <- Hi in Hj.
  destruct (nth_error (nodes_of cs) i) as [[m v]|] eqn:E; [|apply nth_error_None in E; lia]. destruct (mode_of rob cs w i m v V E) as (l' & G' & M & _ & Es & _). assert (l' = l) as -> by (unfold get_node in *; congruence).
  assert (NA : m <> ANCHOR) by (intros ->; destruct (wf_active _ (gd_wf _ (iv_good _ _ _ V)) l I) as [_ Q]; congruence). specialize (St i m v E NA). rewrite Es in St. apply update_settled; auto. intros k Hk. rewrite <- Es in Hk.
  pose proof (below_inc rob cs w V (fun i => - d i) (fun _ => 0) i k ltac:(intros j0 Hj'; rewrite Z by auto; ring) Hj Hk) as Q. unfold inc_of in Q. unfold get_node in Q. rewrite G in Q. rewrite Q. unfold increments. destruct (is_anchor _); reflexivity.
Qed.
Lemma rest_same w w1 : at_rest w -> inv rob cs w1 -> state_of w1 = state_of w -> at_rest w1.
Proof using. intros (V & B & St) V1 E. unfold at_rest. rewrite E. auto. Qed.
Lemma rest_gn k la tol s t : at_rest (s_w s) -> one_step 0 (s_w s) -> solve lin GN k la tol s = Some t -> state_of (s_w t) = state_of (s_w s).
Proof using X P NR.
  intros H On E. pose proof (proj1 H) as V. pose proof (gd_wf _ (iv_good _ _ _ V)) as Wf.
  assert (NS : forall b, build_problem false s = Some b -> nonsingular (g_stateDim (w_graph (s_w s))) (s_L b)) by (intros b Q; apply (gn_regular s b Wf); auto; intros x Z; apply On; rewrite Z; ring).
  destruct (gn_step lin k la tol s t Wf X NS E) as (Gr & O & d & Ed & U).
  assert (Z : forall i, (i < g_stateDim (w_graph (s_w s)))%nat -> d i = 0) by (apply (rest_dx 0); auto; intros y; rewrite Ed; ring).
  apply (rest_states _ _ d H Z Gr); auto. intros l I. apply In_nth_error in I. destruct I as [m I]. apply (U m l I).
Qed.
Lemma rest_iter s t e : at_rest (s_w s) -> 0 < s_lambda s -> lm_iter lin s = Some (t, e) -> state_of (s_w t) = state_of (s_w s) /\ at_rest (s_w t) /\ 0 < s_lambda t /\ e <> Rejected.
Proof using X P NR.
  intros H La It. pose proof (proj1 H) as V. pose proof (gd_wf _ (iv_good _ _ _ V)) as Wf.
  destruct (inv_infos rob cs _ V P NR) as (Sy & Ps & We). assert (Wn : weights_nonneg (s_w s)) by (intros l I; left; apply We; auto).
  destruct (lm_iter_parts lin s t e Wf It) as (s1 & w3 & E1 & K3 & KK3 & Up & Out & Ed & Ke & Lc & Lm).
  destruct (lm_equations lin s s1 Wf X Sy Ps Wn La E1) as (Eq & Eb & EL).
  pose proof (rest_dx (s_lambda s) s (s_dx s1) H (damped_one rob cs NR P _ _ V La) Eq) as Z.
  assert (S3 : state_of w3 = state_of (s_w s)) by (apply (rest_states _ _ (s_dx s1) H Z); [apply (sk_graph _ _ K3)|auto|intros l Hl; rewrite (Out l Hl); reflexivity]).
  pose proof (inv_skel rob cs _ _ V K3 KK3) as V3.
  assert (C : chi2_of w3 = chi2_of (s_w s)) by (rewrite (facts_chi2 rob cs _ V NR), (facts_chi2 rob cs _ V3 NR), S3; reflexivity).
  assert (Ne : e <> Rejected). { rewrite Ed, C. unfold lm_decide. replace (chi2_of (s_w s) - chi2_of (s_w s)) with 0 by ring. unfold Rltb. destruct (Rlt_dec 0 0); [lra|]. destruct (Rlt_dec 0 (s_tol s)); discriminate. }
  destruct (lm_iter_frame _ _ _ _ It) as (K & O & Tt). pose proof (inv_skel rob cs _ _ V K (kk_lm_iter _ _ _ _ It)) as Vt.
  assert (St : state_of (s_w t) = state_of (s_w s)).
  { rewrite <- S3. apply FunctionalExtensionality.functional_extensionality. intros i. unfold state_of, get_node. rewrite (sk_graph _ _ K), (sk_graph _ _ K3). destruct (nth_error _ i) as [l|]; auto. }
  split; auto. split; [apply (rest_same (s_w s)); auto|]. split; [apply (lm_iter_lambda _ _ _ _ La It)|exact Ne].
Qed.
Lemma rest_loop k : forall fuel iter s t j, at_rest (s_w s) -> 0 < s_lambda s -> lm_loop lin fuel iter k s = Some (t, j) -> state_of (s_w t) = state_of (s_w s).
Proof using X P NR.
  induction fuel as [|fuel IH]; intros iter s t j H La E; [discriminate|]. cbn in E. destruct (lm_iter lin s) as [[s1 e]|] eqn:I; [|discriminate]. destruct (rest_iter s s1 e H La I) as (S1 & H1 & L1 & _).
  assert (Go : (if (S iter <? k)%nat then lm_loop lin fuel (S iter) k s1 else Some (s1, 0%nat)) = Some (t, j) -> state_of (s_w t) = state_of (s_w s)).
  { rewrite <- S1. destruct (S iter <? k)%nat; intros Q; [eapply IH; eauto|]. injection Q as <- <-. reflexivity. }
  destruct e; auto. injection E as <- <-. exact S1.
Qed.
Lemma rest_lm k la tol s t : at_rest (s_w s) -> solve lin LM k la tol s = Some t -> state_of (s_w t) = state_of (s_w s).
Proof using X P NR.
  intros H E. unfold solve in E. destruct (optimize_levenberg_marquardt lin k _) as [[t1 j]|] eqn:Q; [|discriminate]. cbn in E. injection E as <-. unfold optimize_levenberg_marquardt in Q.
  apply (rest_loop k) in Q; auto. cbn. lra.
Qed.
(** whatever the states: balanced nodes are updated by zero *)
Lemma quiet_gn k la tol s t i m v : inv rob cs (s_w s) -> balanced rob cs (state_of (s_w s)) -> one_step 0 (s_w s) -> solve lin GN k la tol s = Some t -> nth_error (nodes_of cs) i = Some (m, v) -> m <> ANCHOR ->
  state_of (s_w t) i = val_update (state_of (s_w s) i) (fun _ => 0).
Proof using X P NR.
  intros V B On E Ei NA. pose proof (gd_wf _ (iv_good _ _ _ V)) as Wf.
  assert (NS : forall b, build_problem false s = Some b -> nonsingular (g_stateDim (w_graph (s_w s))) (s_L b)) by (intros b Q; apply (gn_regular s b Wf); auto; intros x Z; apply On; rewrite Z; ring).
  destruct (gn_step lin k la tol s t Wf X NS E) as (Gr & O & d & Ed & U).
  assert (Z : forall i, (i < g_stateDim (w_graph (s_w s)))%nat -> d i = 0) by (apply On; rewrite Rmult_0_l, Rplus_0_r, <- Ed; apply quiet_rhs; auto).
  destruct (mode_of rob cs _ i m v V Ei) as (l & G & M & Id & Es & K). destruct (standard_active rob cs _ i m v l V Ei NA G) as [a Ha]. specialize (U a l Ha).
  assert (Gt : state_of (s_w t) i = nst (n_data (nd (s_w t) l))) by (unfold state_of, get_node in *; rewrite Gr, G; reflexivity). rewrite Gt, U, Es. apply val_update_ext. intros j Hj.
  assert (Hi : (i < length (nodes_of cs))%nat) by (apply nth_error_Some; congruence). rewrite <- Es in Hj. assert (Z' : same_below (g_stateDim (w_graph (s_w s))) (fun i => - d i) (fun _ => 0)) by (intros c Hc; rewrite (Z c Hc); ring).
  pose proof (below_inc rob cs _ V _ _ i j Z' Hi Hj) as Q. unfold inc_of in Q. rewrite G in Q. rewrite Q. unfold increments. destruct (is_anchor _); reflexivity.
Qed.
End Still.
(** ** states that a Gauss-Newton step leaves alone are balanced *)
Lemma dir_vector rob cs w (d : nat -> nat -> R) : inv rob cs w -> (forall i v k, nth_error (nodes_of cs) i = Some (ANCHOR, v) -> d i k = 0) ->
  exists y, forall i k, (i < length (nodes_of cs))%nat -> (k < nval_dim (state_of w i))%nat -> inc_of w y i k = d i k.
Proof.
  intros V A. exists (pack (ndim w) (g_active (w_graph w)) (fun l => d (n_id (nd w l)))). intros i k Hi Hk. destruct (nth_error (nodes_of cs) i) as [[m v]|] eqn:E; [|apply nth_error_None in E; lia].
  destruct (mode_of rob cs w i m v V E) as (l & G & M & Id & Es & _).
  assert (N : m <> ANCHOR -> inc_of w (pack (ndim w) (g_active (w_graph w)) (fun l => d (n_id (nd w l)))) i k = d i k).
  { intros NA. destruct (standard_active rob cs w i m v l V E NA G) as [a Ha]. unfold inc_of. rewrite G, (increments_at w _ a l k (gd_wf _ (iv_good _ _ _ V)) Ha). unfold col. rewrite (pack_at _ _ _ a l k Ha); [rewrite Id; reflexivity|].
    destruct (act_in rob cs w V l (nth_error_In _ _ Ha)) as (j & _ & Ij & _ & D). rewrite D, <- Ij, Id. exact Hk. }
  destruct m; [apply N; discriminate| |apply N; discriminate]. rewrite (A i v k E). apply (anchor_inc rob cs w i v _ k V E).
Qed.
Lemma balanced_rhs rob cs w : inv rob cs w -> Forall call_info cs -> rob <> RANSAC -> (forall y, gn_rhs w y = 0) -> balanced rob cs (state_of w).
Proof.
  intros V P NR H d A. destruct (dir_vector rob cs w d V A) as [y Y]. specialize (H y). rewrite (facts_rhs rob cs w V P NR), lift_facts in H. rewrite <- H. apply lsum_ext. intros c Ic. rewrite pull_lift. unfold lift.
  destruct (call_factor c) as [[[cl ids] W]|] eqn:Ec; auto. assert (Al : alike (fun i => i) (length (nodes_of cs)) (state_of w) (state_of w) (cl, ids, W) (cl, ids, W)).
  { rewrite <- (map_id ids) at 2. apply (alike_class (fun i => i)); [intros i _; reflexivity|]. apply (ids_below rob cs w c cl ids W V Ic Ec). }
  apply (alike_costs _ _ _ _ rob _ _ Al). intros i k Hi Hk. symmetry. apply Y; auto.
Qed.
Lemma unmoved_point v d : (kind_of v = KL2 \/ kind_of v = KL3) -> val_update v d = v -> forall k, (k < nval_dim v)%nat -> d k = 0.
Proof.
  intros [K|K] E; destruct v as [x|T|x y|x|p]; try discriminate; cbn [val_update] in E.
  - injection E as A B. intros [|[|k]] Hk; cbn in Hk; try lia; lra.
  - injection E as E. destruct x as [a b c]. unfold v3add, dx3 in E. cbn in E. injection E as A B C. intros [|[|[|k]]] Hk; cbn in Hk; try lia; lra.
Qed.
Lemma fixed_balanced lin rob cs k la tol s t : exact lin -> Forall call_info cs -> rob <> RANSAC -> inv rob cs (s_w s) -> one_step 0 (s_w s) ->
  (forall i m v, nth_error (nodes_of cs) i = Some (m, v) -> m <> ANCHOR -> kind_of v = KL2 \/ kind_of v = KL3) -> solve lin GN k la tol s = Some t ->
  (forall i m v, nth_error (nodes_of cs) i = Some (m, v) -> m <> ANCHOR -> state_of (s_w t) i = state_of (s_w s) i) -> balanced rob cs (state_of (s_w s)).
Proof.
  intros X P NR V On Kd E St. pose proof (gd_wf _ (iv_good _ _ _ V)) as Wf. set (w := s_w s) in *.
  assert (NS : forall b, build_problem false s = Some b -> nonsingular (g_stateDim (w_graph w)) (s_L b)) by (intros b Q; apply (gn_regular s b Wf); auto; intros x Z; apply On; fold w in Z; rewrite Z; ring).
  destruct (gn_step lin k la tol s t Wf X NS E) as (Gr & O & d & Ed & U). fold w in Gr, O, Ed, U.
  assert (Z : same_below (g_stateDim (w_graph w)) d (fun _ => 0)).
  { apply (inc_below rob cs w V). intros i j Hi Hj. destruct (nth_error (nodes_of cs) i) as [[m v]|] eqn:Ei; [|apply nth_error_None in Ei; lia]. destruct (mode_of rob cs w i m v V Ei) as (l & G & M & Id & Es & K).
    assert (Q0 : inc_of w (fun _ => 0) i j = 0) by (unfold inc_of; rewrite G; unfold increments; destruct (is_anchor _); reflexivity). rewrite Q0.
    assert (N : m <> ANCHOR -> inc_of w d i j = 0).
    { intros NA. destruct (standard_active rob cs w i m v l V Ei NA G) as [a Ha]. specialize (U a l Ha). specialize (St i m v Ei NA). rewrite Es in St. assert (Gt : state_of (s_w t) i = nst (n_data (nd (s_w t) l))) by (unfold state_of, get_node in *; rewrite Gr, G; reflexivity). rewrite Gt, U in St.
      assert (Kv : kind_of (nst (n_data (nd w l))) = KL2 \/ kind_of (nst (n_data (nd w l))) = KL3) by (rewrite <- Es, K; exact (Kd i m v Ei NA)). rewrite Es in Hj.
      pose proof (unmoved_point _ _ Kv St j Hj) as Q. assert (Q1 : inc_of w (fun i => - d i) i j = 0) by (unfold inc_of; rewrite G; exact Q). rewrite inc_opp in Q1. lra. }
    destruct m; [apply N; discriminate| |apply N; discriminate]. apply (anchor_inc rob cs w i v _ j V Ei). }
  apply balanced_rhs; auto. intros y. rewrite Ed. destruct (build_wf s Wf) as (b & _ & B). unfold gn_form. fold w in B. pose proof (normal_matrix s b y d Wf B) as Q. fold w in Q. rewrite <- Q. apply sumn_zero. intros i Hi. apply sumn_zero. intros j Hj. rewrite (Z j Hj). ring.
Qed.
