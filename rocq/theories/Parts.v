(** Parts of a graph are solved alone (C87). *)
Require Import Reals List Arith Lia Lra Bool Permutation.
From Verif Require Import Lin SO3 LinFacts SpecGeom Angle AngleProofs Nodes Robust Graph GraphProofs Sums Solve SpecSolve SolveIndex SolveFrame SolveSums SolveBuild SolveProofs Session SessionProofs.
From Verif Require Import Factors SpecFactors FactorsSession SpecFrame FrameFactors FrameSolve SpecSolvable SpecMapping SolvableSession DenseProofs MappingSession LMMapping SpecReorder Reorder ReorderSolve SpecFixed Fixed SpecTree Tree SpecParts.
Import ListNotations.
Local Open Scope R_scope.
Local Arguments nd : simpl never.
Local Arguments fa : simpl never.

(** sums over the renamed measurements of a part *)
Lemma renamed_sum rob p cs w st st' F F' : inv rob cs w -> Forall (order_kept p) cs -> agree p (length (nodes_of cs)) st st' -> blunt F -> blunt F' -> (forall f f', alike p (length (nodes_of cs)) st st' f f' -> F' f' = F f) ->
  lsum (map (rename p) (flat_map measured cs)) (lift F') = lsum cs (lift F).
Proof.
  intros V O A B B' AL. rewrite lsum_map, <- (lift_measured F cs B). apply lsum_ext. intros c0 I0. apply in_flat_map in I0. destruct I0 as (c & Ic & I0). unfold lift.
  assert (O0 : order_kept p c0). { rewrite Forall_forall in O. specialize (O c Ic). destruct c; cbn [measured] in I0; try contradiction; destruct I0 as [<-|[]]; exact O. }
  destruct (call_factor c0) as [[[cl ids] W]|] eqn:E0.
  - destruct (measured_ids c c0 cl ids W I0 E0) as [cl' Ec]. destruct (alike_call p (length (nodes_of cs)) st st' A c0 cl ids W O0 E0 (ids_below rob cs w c cl' ids W V Ic Ec)) as (f' & E' & Al). rewrite E'. apply AL. exact Al.
  - unfold call_factor in *. destruct c0; cbn [rename pycall_op] in *; try reflexivity; try discriminate; destruct (_ <? _)%nat; discriminate.
Qed.
(** the part of a vector of increments that concerns the part *)
Definition preimage (p : nat -> nat) (n j : nat) : option nat := find (fun i => (p i =? j)%nat) (seq 0 n).
Definition spread (p : nat -> nat) (n : nat) (d : nat -> nat -> R) (j k : nat) : R := match preimage p n j with Some i => d i k | None => 0 end.
Lemma preimage_some p n j i : preimage p n j = Some i -> (i < n)%nat /\ p i = j.
Proof. intros H. apply find_some in H. destruct H as [I E]. apply in_seq in I. apply Nat.eqb_eq in E. split; auto. lia. Qed.
Lemma spread_at p n d i k : (forall i j, (i < n)%nat -> (j < n)%nat -> p i = p j -> i = j) -> (i < n)%nat -> spread p n d (p i) k = d i k.
Proof.
  intros Inj Hi. unfold spread. destruct (preimage p n (p i)) as [j|] eqn:E.
  - destruct (preimage_some _ _ _ _ E) as [Hj Ej]. rewrite (Inj j i Hj Hi Ej). reflexivity.
  - exfalso. pose proof (find_none _ _ E i ltac:(apply in_seq; lia)) as Z. cbn in Z. rewrite Nat.eqb_refl in Z. discriminate.
Qed.
Lemma still_jd st D cl ids i : (forall j k, In j ids -> (k < nval_dim (st j))%nat -> D j k = 0) -> f_jd st D cl ids i = 0.
Proof.
  intros H. unfold f_jd. set (row := fc_jac cl (map st ids) i). clearbody row. generalize 0%nat. induction ids as [|j ids IH]; intros off; cbn; auto. rewrite IH by (intros; apply H; cbn; auto). rewrite sumn_zero; [ring|]. intros k Hk. rewrite (H j k); cbn; auto. ring.
Qed.
Lemma quad_still d W x y : (forall i, x i = 0) -> quad d W x y = 0.
Proof. intros H. unfold quad. apply sumn_zero. intros i Hi. apply sumn_zero. intros j Hj. rewrite H. ring. Qed.
Section Part.
Variables (rob : robust_type) (p : nat -> nat) (cs1 cs : list pycall) (w1 w : world).
Hypothesis (NR : rob <> RANSAC) (P1 : Forall call_info cs1) (P : Forall call_info cs) (V1 : inv rob cs1 w1) (V : inv rob cs w).
Hypothesis (Po : part_of p cs1 cs) (O : Forall (order_kept p) cs1) (St : forall i, (i < length (nodes_of cs1))%nat -> state_of w (p i) = state_of w1 i).
Let n := length (nodes_of cs1).
Lemma part_below i : (i < n)%nat -> (p i < length (nodes_of cs))%nat.
Proof using Po.
  intros Hi. destruct (nth_error (nodes_of cs1) i) as [[m v]|] eqn:E; [|apply nth_error_None in E; unfold n in Hi; lia]. destruct (po_node _ _ _ Po i m v E) as [v' E']. apply nth_error_Some. congruence.
Qed.
(** sums over all measurements, with increments that leave the others alone *)
Lemma part_sums z z1 d d1 : agree_d p n (state_of w1) (inc_of w1 z1) (inc_of w z) -> agree_d p n (state_of w1) (inc_of w1 d1) (inc_of w d) ->
  (forall j k, (j < length (nodes_of cs))%nat -> (k < nval_dim (state_of w j))%nat -> (forall i, (i < n)%nat -> p i <> j) -> inc_of w z j k = 0) ->
  gn_form w z d = gn_form w1 z1 d1 /\ gn_rhs w z = gn_rhs w1 z1.
Proof using NR P1 P V1 V Po O St.
  intros Az Ad Out. destruct (po_calls _ _ _ Po) as (others & Pe & Ap).
  assert (Z : forall c cl ids W, In c others -> call_factor c = Some (cl, ids, W) -> forall i, f_jd (state_of w) (inc_of w z) cl ids i = 0).
  { intros c cl ids W Ic Ec i. apply still_jd. intros j k Ij Hk. assert (I : In c (flat_map measured cs)) by (apply (Permutation_in _ (Permutation_sym Pe)), in_or_app; auto). apply in_flat_map in I. destruct I as (c' & Ic' & I').
    destruct (measured_ids c' c cl ids W I' Ec) as [cl' Ec']. pose proof (ids_below rob cs w c' cl' ids W V Ic' Ec' j Ij) as Hj. destruct (in_dec Nat.eq_dec j (map p (seq 0 n))) as [I|N].
    - apply in_map_iff in I. destruct I as (i' & E' & Hi'). apply in_seq in Hi'. destruct (Ap c i' Ic ltac:(fold n; lia)) as [v Ei']; [unfold touches; rewrite Ec, E'; exact Ij|]. destruct (po_node _ _ _ Po i' _ _ Ei') as [v' Ej]. rewrite <- E'. apply (anchor_inc rob cs w (p i') v' z k V Ej).
    - apply Out; auto. intros i' Hi' E'. apply N, in_map_iff. exists i'. split; auto. apply in_seq. lia. }
  assert (A : agree p (length (nodes_of cs1)) (state_of w1) (state_of w)) by (intros i Hi; apply St, Hi).
  rewrite (facts_form rob cs w V P NR), (facts_rhs rob cs w V P NR), (facts_form rob cs1 w1 V1 P1 NR), (facts_rhs rob cs1 w1 V1 P1 NR), !lift_facts.
  rewrite <- (lift_measured (f_f rob (state_of w) (inc_of w z) (inc_of w d)) cs) by apply blunt_f. rewrite <- (lift_measured (f_g rob (state_of w) (inc_of w z)) cs) by apply blunt_g. rewrite !(lsum_perm _ _ _ Pe), !lsum_app.
  rewrite (renamed_sum rob p cs1 w1 (state_of w1) (state_of w) (f_f rob (state_of w1) (inc_of w1 z1) (inc_of w1 d1)) (f_f rob (state_of w) (inc_of w z) (inc_of w d))), (renamed_sum rob p cs1 w1 (state_of w1) (state_of w) (f_g rob (state_of w1) (inc_of w1 z1)) (f_g rob (state_of w) (inc_of w z))); auto using blunt_f, blunt_g.
  - rewrite !(lsum_zero others); [split; ring| |]; intros c Ic; unfold lift; destruct (call_factor c) as [[[cl ids] W]|] eqn:Ec; auto; unfold f_f, f_g; rewrite quad_still by (intros; eapply Z; eauto); ring.
  - intros f f' Al. apply (proj1 (proj2 (alike_costs _ _ _ _ rob f f' Al) _ _ Az)).
  - intros f f' Al. apply (proj2 (proj2 (alike_costs _ _ _ _ rob f f' Al) _ _ Az) _ _ Ad).
Qed.
(** the whole graph's vector for one of the part, and the part's for one of the whole *)
Lemma part_extend z1 : exists z, agree_d p n (state_of w1) (inc_of w1 z1) (inc_of w z) /\ forall j k, (j < length (nodes_of cs))%nat -> (k < nval_dim (state_of w j))%nat -> (forall i, (i < n)%nat -> p i <> j) -> inc_of w z j k = 0.
Proof using V1 V Po St.
  destruct (dir_vector rob cs w (spread p n (inc_of w1 z1)) V) as [z Z].
  { intros j v k Ej. unfold spread. destruct (preimage p n j) as [i|] eqn:E; auto. destruct (preimage_some _ _ _ _ E) as [Hi <-]. destruct (nth_error (nodes_of cs1) i) as [[m v1]|] eqn:Ei; [|apply nth_error_None in Ei; unfold n in Hi; lia].
    destruct (po_node _ _ _ Po i m v1 Ei) as [v' E']. rewrite Ej in E'. injection E' as <- <-. apply (anchor_inc rob cs1 w1 i v1 z1 k V1 Ei). }
  exists z. split.
  - intros i k Hi Hk. rewrite Z; [|apply part_below, Hi|rewrite St by exact Hi; exact Hk]. apply spread_at; auto. apply (po_apart _ _ _ Po).
  - intros j k Hj Hk N. rewrite Z by auto. unfold spread. destruct (preimage p n j) as [i|] eqn:E; auto. destruct (preimage_some _ _ _ _ E) as [Hi E']. exfalso. apply (N i Hi E').
Qed.
Lemma part_restrict z : exists z1, agree_d p n (state_of w1) (inc_of w1 z1) (inc_of w z).
Proof using V1 V Po.
  destruct (dir_vector rob cs1 w1 (fun i k => inc_of w z (p i) k) V1) as [z1 Z].
  { intros i v k Ei. destruct (po_node _ _ _ Po i _ v Ei) as [v' E']. apply (anchor_inc rob cs w (p i) v' z k V E'). }
  exists z1. intros i k Hi Hk. symmetry. apply Z; auto.
Qed.
Lemma part_one : one_step 0 w -> one_step 0 w1.
Proof using NR P1 P V1 V Po O St.
  intros On x Zx. destruct (part_extend x) as (z & Az & Out). destruct (part_sums z x z x Az Az Out) as [F _].
  assert (Z : same_below (g_stateDim (w_graph w)) z (fun _ => 0)) by (intros i Hi; apply On; auto; rewrite F; lra).
  apply (inc_below rob cs1 w1 V1 x (fun _ => 0)). intros i k Hi Hk. rewrite <- (Az i k Hi Hk). rewrite (below_inc rob cs w V z (fun _ => 0) (p i) k Z (part_below i Hi)) by (rewrite St by exact Hi; exact Hk).
  unfold inc_of. destruct (get_node w (p i)), (get_node w1 i); unfold increments; repeat destruct (is_anchor _); reflexivity.
Qed.
End Part.

(** a node after a Gauss-Newton step *)
Lemma gn_node lin rob cs k la tol s t : exact lin -> inv rob cs (s_w s) -> one_step 0 (s_w s) -> solve lin GN k la tol s = Some t ->
  exists d, (forall y, gn_rhs (s_w s) y = gn_form (s_w s) y d) /\ forall i m v, nth_error (nodes_of cs) i = Some (m, v) ->
    state_of (s_w t) i = match m with ANCHOR => state_of (s_w s) i | _ => val_update (state_of (s_w s) i) (fun j => - inc_of (s_w s) d i j) end.
Proof.
  intros X V On E. pose proof (gd_wf _ (iv_good _ _ _ V)) as Wf. set (w := s_w s) in *.
  assert (NS : forall b, build_problem false s = Some b -> nonsingular (g_stateDim (w_graph w)) (s_L b)) by (intros b Q; apply (gn_regular s b Wf); auto; intros x Z; apply On; fold w in Z; rewrite Z; ring).
  destruct (gn_step lin k la tol s t Wf X NS E) as (Gr & O & d & Ed & U). fold w in Gr, O, Ed, U. exists d. split; auto. intros i m v Ei.
  destruct (mode_of rob cs w i m v V Ei) as (l & G & M & Id & Es & K). assert (Gt : state_of (s_w t) i = nst (n_data (nd (s_w t) l))) by (unfold state_of, get_node in *; rewrite Gr, G; reflexivity).
  assert (N : m <> ANCHOR -> state_of (s_w t) i = val_update (state_of w i) (fun j => - inc_of w d i j)).
  { intros NA. destruct (standard_active rob cs w i m v l V Ei NA G) as [a Ha]. rewrite Gt, (U a l Ha), Es. apply val_update_ext. intros j Hj. rewrite <- inc_opp. unfold inc_of. rewrite G. reflexivity. }
  destruct m; [apply N; discriminate| |apply N; discriminate]. rewrite Gt, Es. apply O. intros I. apply (proj2 (wf_active _ Wf l I)). exact M.
Qed.
Lemma part_solved lin rob p cs1 cs k la tol s1 s t1 t : exact lin -> rob <> RANSAC -> Forall call_info cs1 -> Forall call_info cs -> inv rob cs1 (s_w s1) -> inv rob cs (s_w s) -> part_of p cs1 cs -> Forall (order_kept p) cs1 ->
  one_step 0 (s_w s) -> (forall i, (i < length (nodes_of cs1))%nat -> state_of (s_w s) (p i) = state_of (s_w s1) i) -> solve lin GN k la tol s1 = Some t1 -> solve lin GN k la tol s = Some t ->
  forall i, (i < length (nodes_of cs1))%nat -> state_of (s_w t) (p i) = state_of (s_w t1) i.
Proof.
  intros X NR P1 P V1 V Po O On St E1 E i Hi. pose proof (part_one rob p cs1 cs _ _ NR P1 P V1 V Po O St On) as On1.
  destruct (gn_node lin rob cs k la tol s t X V On E) as (d & Ed & U). destruct (gn_node lin rob cs1 k la tol s1 t1 X V1 On1 E1) as (d1 & Ed1 & U1).
  destruct (part_restrict rob p cs1 cs _ _ V1 V Po d) as (y & Ay).
  assert (Sb : same_below (g_stateDim (w_graph (s_w s1))) d1 y).
  { apply (step_unique 0 s1 d1 y (gd_wf _ (iv_good _ _ _ V1)) On1). intros z1. destruct (part_extend rob p cs1 cs _ _ V1 V Po St z1) as (z & Az & Out).
    destruct (part_sums rob p cs1 cs _ _ NR P1 P V1 V Po O St z z1 d y Az Ay Out) as [F R]. rewrite <- Ed1, <- F, <- R, Ed. ring. }
  destruct (nth_error (nodes_of cs1) i) as [[m v]|] eqn:Ei; [|apply nth_error_None in Ei; lia]. destruct (po_node _ _ _ Po i m v Ei) as [v' Ej].
  rewrite (U1 i m v Ei), (U (p i) m v' Ej), (St i Hi).
  assert (N : val_update (state_of (s_w s1) i) (fun j => - inc_of (s_w s) d (p i) j) = val_update (state_of (s_w s1) i) (fun j => - inc_of (s_w s1) d1 i j)); [|destruct m; auto].
  apply val_update_ext. intros j Hj. f_equal. rewrite (below_inc rob cs1 _ V1 d1 y i j Sb Hi Hj). apply Ay; auto.
Qed.

(** ** Levenberg-Marquardt steps on small graphs *)
Lemma jd_same st D E cl ids i : (forall j k, In j ids -> (k < nval_dim (st j))%nat -> D j k = E j k) -> f_jd st D cl ids i = f_jd st E cl ids i.
Proof.
  intros H. unfold f_jd. set (row := fc_jac cl (map st ids) i). clearbody row. generalize 0%nat. induction ids as [|j ids IH]; intros off; cbn; auto. rewrite IH by (intros; apply H; cbn; auto). f_equal. apply sumn_ext. intros k Hk. rewrite (H j k); cbn; auto.
Qed.
Lemma form_nonneg rob cs w x : rob <> RANSAC -> Forall call_info cs -> inv rob cs w -> 0 <= gn_form w x x.
Proof.
  intros NR P V. destruct (inv_infos rob cs w V P NR) as (Sy & Ps & We). apply lsum_nonneg. intros l I. apply Rmult_le_pos; [left; apply We; auto|]. rewrite quad_sym by (apply Sy; auto). apply Ps; auto.
Qed.
Lemma lm_node lin rob cs s t e : exact lin -> rob <> RANSAC -> Forall call_info cs -> inv rob cs (s_w s) -> 0 < s_lambda s -> lm_iter lin s = Some (t, e) ->
  exists d w3, (forall y, gn_form (s_w s) y d + s_lambda s * dot (g_stateDim (w_graph (s_w s))) y d = gn_rhs (s_w s) y) /\ inv rob cs w3 /\ inv rob cs (s_w t) /\ 0 < s_lambda t /\
    (forall i m v, nth_error (nodes_of cs) i = Some (m, v) -> state_of w3 i = match m with ANCHOR => state_of (s_w s) i | _ => val_update (state_of (s_w s) i) (fun j => - inc_of (s_w s) d i j) end) /\
    e = lm_decide (Some (chi2_of (s_w s))) (Some (chi2_of w3)) (s_tol s) /\
    (forall i m v, nth_error (nodes_of cs) i = Some (m, v) -> state_of (s_w t) i = match e with Rejected => match m with ANCHOR => state_of (s_w s) i | _ => val_set (state_of (s_w s) i) end | _ => state_of w3 i end).
Proof.
  intros X NR P V La It. pose proof (gd_wf _ (iv_good _ _ _ V)) as Wf.
  destruct (inv_infos rob cs _ V P NR) as (Sy & Ps & We). assert (Wn : weights_nonneg (s_w s)) by (intros l I; left; apply We; auto).
  destruct (lm_iter_parts lin s t e Wf It) as (s1 & w3 & E1 & K3 & KK3 & Up & Out & Ed & Ke & _).
  destruct (lm_equations lin s s1 Wf X Sy Ps Wn La E1) as (Eq & _). destruct (lm_iter_frame _ _ _ _ It) as (K & O & _).
  exists (s_dx s1), w3. split; auto. split; [eapply inv_skel; eauto|]. split; [eapply inv_skel; eauto; apply (kk_lm_iter _ _ _ _ It)|]. split; [apply (lm_iter_lambda _ _ _ _ La It)|].
  assert (St : forall u i l, skel (s_w s) u -> get_node (s_w s) i = Some l -> state_of u i = nst (n_data (nd u l))) by (intros u i l Ku G; unfold state_of, get_node in *; rewrite (sk_graph _ _ Ku), G; reflexivity).
  split; [|split; auto].
  - intros i m v Ei. destruct (mode_of rob cs _ i m v V Ei) as (l & G & M & Id & Es & _). rewrite (St _ _ _ K3 G).
    assert (N : m <> ANCHOR -> nst (n_data (nd w3 l)) = val_update (state_of (s_w s) i) (fun j => - inc_of (s_w s) (s_dx s1) i j)).
    { intros NA. destruct (standard_active rob cs _ i m v l V Ei NA G) as [a Ha]. rewrite (Up l (nth_error_In _ _ Ha)), Es. apply val_update_ext. intros j Hj. rewrite <- inc_opp. unfold inc_of. rewrite G. reflexivity. }
    destruct m; [apply N; discriminate| |apply N; discriminate]. rewrite Out; auto. intros I. apply (proj2 (wf_active _ Wf l I)). exact M.
  - intros i m v Ei. destruct (mode_of rob cs _ i m v V Ei) as (l & G & M & Id & Es & _). rewrite (St _ _ _ K G), (St _ _ _ K3 G).
    destruct e; [|apply Ke; discriminate|apply Ke; discriminate].
    destruct (lm_iter_step lin s t Rejected Wf It) as (_ & _ & _ & _ & _ & _ & _ & Rj).
    assert (N : m <> ANCHOR -> nst (n_data (nd (s_w t) l)) = val_set (state_of (s_w s) i)).
    { intros NA. destruct (standard_active rob cs _ i m v l V Ei NA G) as [a Ha]. rewrite (Rj l (nth_error_In _ _ Ha)), Es. reflexivity. }
    destruct m; [apply N; discriminate| |apply N; discriminate]. rewrite Es, O; [reflexivity|]. intros I. apply (proj2 (wf_active _ Wf l I)). exact M.
Qed.
Lemma wrap_angle_zero : wrap_angle 0 = 0. Proof. apply wrap_angle_id. pose proof PI_RGT_0. lra. Qed.
(** one active node *)
Lemma lone_active rob cs w m v : inv rob cs w -> nodes_of cs = [(m, v)] -> m <> ANCHOR -> act_ids w = [0%nat].
Proof.
  intros V N NA. apply Permutation_length_1_inv. apply NoDup_Permutation; [constructor; [auto|constructor]|apply (wf_ids _ (gd_wf _ (iv_good _ _ _ V)))|].
  intros i. rewrite (act_iff rob cs w V), N. split.
  - intros [<-|[]]. exists m, v. auto.
  - intros (m' & v' & E & _). destruct i; [left; auto|]. destruct i; discriminate.
Qed.
(** a lone planar pose with a prior at the origin and information a times the identity *)
Lemma lone_lm lin a W s t e x : exact lin -> 0 < a -> proper 3 W -> (forall u v, quad 3 W u v = a * (u 0%nat * v 0%nat + u 1%nat * v 1%nat + u 2%nat * v 2%nat)) ->
  let cs := [CNode STANDARD (P2 (mkV3 1 0 0)); CPose2d (mkV3 0 0 0) 0 W] in inv QUADRATIC cs (s_w s) -> state_of (s_w s) 0 = P2 (mkV3 x 0 0) -> 0 < s_lambda s -> lm_iter lin s = Some (t, e) ->
  e <> Rejected /\ state_of (s_w t) 0 = P2 (mkV3 (x * s_lambda s / (a + s_lambda s)) 0 0) /\ chi2_of (s_w t) = 1 / 2 * a * Rsqr (x * s_lambda s / (a + s_lambda s)) /\ chi2_of (s_w s) = 1 / 2 * a * Rsqr x /\ inv QUADRATIC cs (s_w t) /\ 0 < s_lambda t.
Proof.
  intros X Ha PW Q cs V S0 La It. assert (P : Forall call_info cs) by (repeat (apply Forall_cons; [first [exact I|exact PW]|]); apply Forall_nil).
  assert (NR : QUADRATIC <> RANSAC) by discriminate. destruct (lm_node lin QUADRATIC cs s t e X NR P V La It) as (d & w3 & Ed & V3 & Vt & Lt & U3 & Ee & Ut). set (la := s_lambda s) in *.
  assert (E0 : nth_error (nodes_of cs) 0 = Some (STANDARD, P2 (mkV3 1 0 0))) by reflexivity. specialize (U3 0%nat _ _ E0). specialize (Ut 0%nat _ _ E0). cbn in U3.
  assert (Rs : forall y, fc_res (c_pose2d (mkV3 0 0 0)) [P2 (mkV3 y 0 0)] 0 = y /\ fc_res (c_pose2d (mkV3 0 0 0)) [P2 (mkV3 y 0 0)] 1 = 0 /\ fc_res (c_pose2d (mkV3 0 0 0)) [P2 (mkV3 y 0 0)] 2 = 0).
  { intros y. cbn -[res_pose2d]. unfold res_pose2d, wrap3, v3sub. cbn. replace (0 - 0) with 0 by ring. rewrite wrap_angle_zero. repeat split; ring. }
  assert (C : forall w y, inv QUADRATIC cs w -> state_of w 0 = P2 (mkV3 y 0 0) -> chi2_of w = 1 / 2 * a * Rsqr y).
  { intros w y Vw Sw. rewrite (facts_chi2 QUADRATIC cs w Vw NR), lift_facts. unfold cs. rewrite !lsum_cons, lsum_nil. unfold lift, call_factor. cbn [pycall_op]. unfold f_c. cbn [map]. change (fc_dim (c_pose2d (mkV3 0 0 0))) with 3%nat. rewrite Sw, Q. destruct (Rs y) as (R0 & R1 & R2). rewrite R0, R1, R2. unfold Rsqr. ring. }
  set (D := fun (_ k : nat) => match k with O => x * / (a + la) * a | _ => 0 end).
  destruct (dir_vector QUADRATIC cs (s_w s) D V) as [y0 Y0]. { intros [|[|i]] v k Ei; discriminate. }
  assert (J : forall y i, (i < 3)%nat -> f_jd (state_of (s_w s)) (inc_of (s_w s) y) (c_pose2d (mkV3 0 0 0)) [0%nat] i = inc_of (s_w s) y 0 i) by (intros y i Hi; apply (jd_pose2d _ _ _ _ _ _ S0 Hi)).
  assert (Y : forall k, (k < 3)%nat -> inc_of (s_w s) y0 0 k = D 0%nat k) by (intros k Hk; apply Y0; [cbn; lia|rewrite S0; exact Hk]).
  assert (Sb : same_below (g_stateDim (w_graph (s_w s))) d y0).
  { apply (step_unique la s d y0 (gd_wf _ (iv_good _ _ _ V)) (damped_one QUADRATIC cs NR P la _ V La)). intros y. rewrite Ed.
    rewrite (act_dot QUADRATIC cs (s_w s) V), (lone_active QUADRATIC cs (s_w s) _ _ V eq_refl) by discriminate. rewrite lsum_cons, lsum_nil, S0.
    rewrite (facts_form QUADRATIC cs _ V P NR), (facts_rhs QUADRATIC cs _ V P NR), !lift_facts. unfold cs. rewrite !lsum_cons, !lsum_nil. unfold lift, call_factor. cbn [pycall_op]. unfold f_f, f_g, f_w. cbn [robust_eval map]. change (fc_dim (c_pose2d (mkV3 0 0 0))) with 3%nat. rewrite S0, !Q, !J by lia. destruct (Rs x) as (R0 & R1 & R2). rewrite R0, R1, R2.
    cbn [nval_dim sumn]. rewrite !Y by lia. unfold D. field. lra. }
  assert (W0 : state_of w3 0 = P2 (mkV3 (x * la / (a + la)) 0 0)).
  { rewrite U3. rewrite (val_update_ext _ _ (fun j => - D 0%nat j)). rewrite S0. unfold D. cbn. unfold wrap3, v3add, dx3. cbn. f_equal. replace (0 + - 0) with 0 by ring. rewrite wrap_angle_zero. f_equal; field; lra.
    intros j Hj. f_equal. rewrite (below_inc QUADRATIC cs _ V d y0 0 j Sb) by (auto; cbn; lia). apply Y. rewrite S0 in Hj. exact Hj. }
  assert (Le : Rsqr (x * la / (a + la)) <= Rsqr x).
  { replace (x * la / (a + la)) with (x * (la / (a + la))) by (field; lra). assert (0 <= la / (a + la) <= 1). { split; [apply Rlt_le, Rdiv_lt_0_compat; lra|]. apply (Rmult_le_reg_r (a + la)); [lra|]. unfold Rdiv. rewrite Rmult_assoc, Rinv_l by lra. lra. } set (r := la / (a + la)) in *. unfold Rsqr. assert (0 <= x * x) by nra. assert (r * r <= 1) by nra. nra. }
  assert (Ne : e <> Rejected).
  { rewrite Ee, (C _ x V S0), (C _ _ V3 W0). unfold lm_decide, Rltb. destruct (Rlt_dec _ 0); [exfalso; nra|]. destruct (Rlt_dec _ _); discriminate. }
  assert (T0 : state_of (s_w t) 0 = P2 (mkV3 (x * la / (a + la)) 0 0)) by (rewrite Ut, W0; destruct e; congruence).
  split; [exact Ne|]. split; [exact T0|]. split; [apply C; auto|]. split; [apply C; auto|]. split; auto.
Qed.
