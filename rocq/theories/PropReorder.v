(** C84: solving does not depend on the order in which a graph was built. *)
Require Import Reals List Arith Lia Lra Bool Permutation.
From Verif Require Import Lin SpecGeom SO3 SE3 Angle AngleProofs Nodes Robust Graph Sums Solve SpecSolve SolveSums SolveProofs Session SessionProofs.
From Verif Require Import Factors SpecFactors SpecFrame FrameFactors Gauss FrameSolve SpecSolvable SolvableSession FactorsSession PropFrame SpecMapping MappingSession SpecReorder Reorder ReorderSolve.
Import ListNotations.
Local Open Scope R_scope.

(** *** Nodes and measurements in another order: the same chi2 before and after
    solving, and the same states, under the new ids *)
Theorem C84_order : forall lin rob p cs cs' m k lambda tol s s', exact lin -> rob <> RANSAC -> typed [] cs -> typed [] cs' -> Forall call_info cs -> Forall call_info cs' ->
  renumbered p cs cs' -> Forall (order_kept p) cs -> Permutation (map (rename p) (flat_map measured cs)) (flat_map measured cs') ->
  (m = GN -> Forall solid_call cs /\ forall i, (i < length (nodes_of cs))%nat -> held cs i) ->
  pycalls lin rob (solver_new world_new) cs = Some s -> pycalls lin rob (solver_new world_new) cs' = Some s' ->
  (forall i, (i < length (nodes_of cs))%nat -> state_of (s_w s') (p i) = state_of (s_w s) i) ->
  chi2_of (s_w s') = chi2_of (s_w s) /\ exists t t', solve lin m k lambda tol s = Some t /\ solve lin m k lambda tol s' = Some t' /\
  (forall i, (i < length (nodes_of cs))%nat -> state_of (s_w t') (p i) = state_of (s_w t) i) /\ chi2_of (s_w t') = chi2_of (s_w t).
Proof. intros lin rob p cs cs' m k la tol s s' X NR T T' P P' Rn O Pe Hm E E' St. apply (solves_alike lin rob p cs cs'); auto. apply perm_costs, Pe. Qed.
Print Assumptions C84_order.

(** *** Without a robust function, a measurement may also be entered in shares: as
    several calls whose informations add up to its information *)
Theorem C84_shares : forall lin p cs cs' m k lambda tol s s', exact lin -> typed [] cs -> typed [] cs' -> Forall call_info cs -> Forall call_info cs' ->
  renumbered p cs cs' -> Forall (order_kept p) cs -> regrouped (map (rename p) (flat_map measured cs)) (flat_map measured cs') ->
  (m = GN -> Forall solid_call cs /\ forall i, (i < length (nodes_of cs))%nat -> held cs i) ->
  pycalls lin QUADRATIC (solver_new world_new) cs = Some s -> pycalls lin QUADRATIC (solver_new world_new) cs' = Some s' ->
  (forall i, (i < length (nodes_of cs))%nat -> state_of (s_w s') (p i) = state_of (s_w s) i) ->
  chi2_of (s_w s') = chi2_of (s_w s) /\ exists t t', solve lin m k lambda tol s = Some t /\ solve lin m k lambda tol s' = Some t' /\
  (forall i, (i < length (nodes_of cs))%nat -> state_of (s_w t') (p i) = state_of (s_w t) i) /\ chi2_of (s_w t') = chi2_of (s_w t).
Proof. intros lin p cs cs' m k la tol s s' X T T' P P' Rn O Pe Hm E E' St. apply (solves_alike lin QUADRATIC p cs cs'); auto. discriminate. apply regrouped_costs, Pe. Qed.
Print Assumptions C84_shares.

(** *** Example: an anchored pose, a pose and a landmark; then the landmark first *)
Definition first_calls : list pycall :=
  [CNode ANCHOR (P2 (mkV3 0 0 0)); CNode STANDARD (P2 (mkV3 1 0 0)); CNode STANDARD (L2 2 1); C2Poses2d (mkV3 2 0 0) 0 1 id3 false; CLandmark2d 3 1 1 2 id3 false].
Definition second_calls : list pycall :=
  [CNode STANDARD (L2 2 1); CNode ANCHOR (P2 (mkV3 0 0 0)); CNode STANDARD (P2 (mkV3 1 0 0)); CLandmark2d 3 1 2 0 id3 false; C2Poses2d (mkV3 2 0 0) 1 2 id3 false].
(** the same, with the observation entered in two shares *)
Definition third id2 : list pycall :=
  [CNode STANDARD (L2 2 1); CNode ANCHOR (P2 (mkV3 0 0 0)); CNode STANDARD (P2 (mkV3 1 0 0)); CLandmark2d 3 1 2 0 id2 false; C2Poses2d (mkV3 2 0 0) 1 2 id3 false; CLandmark2d 3 1 2 0 id2 false].
Definition half : nat -> nat -> R := fun i j => id3 i j / 2.
Definition turn_ids (i : nat) : nat := match i with 0 => 1 | 1 => 2 | _ => 0 end.
Lemma half_proper n : proper n half.
Proof.
  split. { intros i j _ _. unfold half, id3. rewrite Nat.eqb_sym. reflexivity. } intros x. assert (Q : quad n half x x = / 2 * quad n id3 x x) by (unfold quad, half; rewrite <- sumn_scal; apply sumn_ext; intros; rewrite <- sumn_scal; apply sumn_ext; intros; field).
  rewrite Q. apply Rmult_le_pos; [lra|]. apply id3_proper.
Qed.
Lemma id3_positive n : positive n id3.
Proof.
  intros x Z i Hi. rewrite id3_quad in Z. assert (0 <= x i * x i <= 0); [|nra]. split; [nra|]. rewrite <- Z. clear Z. induction n as [|n IH]; [lia|]. cbn [sumn].
  assert (0 <= sumn n (fun i => x i * x i)) by (apply sumn_nonneg; intros; nra). destruct (Nat.eq_dec i n) as [->|]; [lra|]. specialize (IH ltac:(lia)). nra.
Qed.
Ltac infos := repeat (apply Forall_cons; [first [exact I | exact (id3_proper _) | exact (half_proper _)]|]); apply Forall_nil.
Lemma first_ok : typed [] first_calls /\ Forall call_info first_calls /\ Forall (order_kept turn_ids) first_calls /\ Forall solid_call first_calls /\ forall i, (i < length (nodes_of first_calls))%nat -> held first_calls i.
Proof.
  split. { cbn. repeat split; auto; discriminate. }
  split. { infos. }
  split. { unfold first_calls. repeat (constructor; [cbn; try exact I; lia|]). constructor. }
  split. { repeat (apply Forall_cons; [exact I|]). apply Forall_nil. }
  assert (H0 : held first_calls 0) by (eapply held_anchor; reflexivity). assert (H1 : held first_calls 1) by (eapply held_2poses2d; [do 3 right; left; reflexivity|apply id3_positive|exact H0]).
  intros [|[|[|i]]] Hi; auto; [|cbn in Hi; lia]. eapply held_landmark2d; [do 4 right; left; reflexivity|apply id3_positive|exact H1].
Qed.
Lemma turned_ids cs' : nodes_of cs' = nodes_of second_calls -> renumbered turn_ids first_calls cs'.
Proof.
  intros E. constructor; rewrite ?E; auto.
  - intros [|[|[|i]]] m v H; cbn in H |- *; [| | |destruct i; discriminate]; injection H as <- <-; eauto.
  - intros [|[|[|i]]] [|[|[|j]]] Hi Hj; cbn in Hi, Hj |- *; lia.
Qed.
Ltac states := eexists; split; [cbv -[id3 half IZR gauss res_2poses2d jac_2poses2d res_landmark2d jac_landmark2d init_landmark2d lvec lmat beside l3 R0 R1]; reflexivity|]; intros [|[|[|i]]] Hi; [reflexivity|reflexivity|reflexivity|lia].
Lemma first_run : exists s, pycalls gauss HUBER (solver_new world_new) first_calls = Some s /\ forall i, (i < 3)%nat -> state_of (s_w s) i = nth i [P2 (mkV3 0 0 0); P2 (mkV3 1 0 0); L2 2 1] (P2 v3zero).
Proof. states. Qed.
Lemma second_run : exists s, pycalls gauss HUBER (solver_new world_new) second_calls = Some s /\ forall i, (i < 3)%nat -> state_of (s_w s) i = nth i [L2 2 1; P2 (mkV3 0 0 0); P2 (mkV3 1 0 0)] (P2 v3zero).
Proof. states. Qed.
Lemma first_run' : exists s, pycalls gauss QUADRATIC (solver_new world_new) first_calls = Some s /\ forall i, (i < 3)%nat -> state_of (s_w s) i = nth i [P2 (mkV3 0 0 0); P2 (mkV3 1 0 0); L2 2 1] (P2 v3zero).
Proof. states. Qed.
Lemma third_run : exists s, pycalls gauss QUADRATIC (solver_new world_new) (third half) = Some s /\ forall i, (i < 3)%nat -> state_of (s_w s) i = nth i [L2 2 1; P2 (mkV3 0 0 0); P2 (mkV3 1 0 0)] (P2 v3zero).
Proof. states. Qed.
Lemma at_turned w w' : (forall i, (i < 3)%nat -> state_of w i = nth i [P2 (mkV3 0 0 0); P2 (mkV3 1 0 0); L2 2 1] (P2 v3zero)) -> (forall i, (i < 3)%nat -> state_of w' i = nth i [L2 2 1; P2 (mkV3 0 0 0); P2 (mkV3 1 0 0)] (P2 v3zero)) ->
  forall i, (i < length (nodes_of first_calls))%nat -> state_of w' (turn_ids i) = state_of w i.
Proof. intros A B [|[|[|i]]] Hi; cbn in Hi; [| | |lia]; rewrite A, B by (cbn; lia); reflexivity. Qed.
Example C84_ex_order : exists s s' t t', pycalls gauss HUBER (solver_new world_new) first_calls = Some s /\ pycalls gauss HUBER (solver_new world_new) second_calls = Some s' /\
  solve gauss GN 1 0 0 s = Some t /\ solve gauss GN 1 0 0 s' = Some t' /\ state_of (s_w t') 2 = state_of (s_w t) 1 /\ state_of (s_w t') 0 = state_of (s_w t) 2 /\ chi2_of (s_w t') = chi2_of (s_w t).
Proof.
  destruct first_ok as (T & P & O & So & Hd). destruct first_run as (s & E & S). destruct second_run as (s' & E' & S').
  destruct (C84_order gauss HUBER turn_ids first_calls second_calls GN 1 0 0 s s') as (_ & t & t' & Et & Et' & St & C); auto.
  - exact gauss_exact.
  - discriminate.
  - cbn. repeat split; auto; discriminate.
  - infos.
  - apply turned_ids. reflexivity.
  - cbn. apply perm_swap.
  - apply at_turned; auto.
  - exists s, s', t, t'. do 4 (split; [assumption|]). split; [apply (St 1%nat); cbn; lia|]. split; [apply (St 2%nat); cbn; lia|exact C].
Qed.
Example C84_ex_shares : exists s s' t t', pycalls gauss QUADRATIC (solver_new world_new) first_calls = Some s /\ pycalls gauss QUADRATIC (solver_new world_new) (third half) = Some s' /\
  solve gauss LM 10 0 0 s = Some t /\ solve gauss LM 10 0 0 s' = Some t' /\ state_of (s_w t') 2 = state_of (s_w t) 1 /\ state_of (s_w t') 0 = state_of (s_w t) 2 /\ chi2_of (s_w t') = chi2_of (s_w t).
Proof.
  destruct first_ok as (T & P & O & So & Hd). destruct first_run' as (s & E & S). destruct third_run as (s' & E' & S').
  destruct (C84_shares gauss turn_ids first_calls (third half) LM 10 0 0 s s') as (_ & t & t' & Et & Et' & St & C); auto.
  - exact gauss_exact.
  - cbn. repeat split; auto; discriminate.
  - infos.
  - apply turned_ids. reflexivity.
  - cbn. eapply rg_trans; [apply rg_order, perm_swap|]. eapply rg_trans; [apply (rg_shares _ half half); intros i j; cbn [info_of]; unfold half; field|]. apply rg_order. cbn. apply perm_skip, perm_swap.
  - apply at_turned; auto.
  - exists s, s', t, t'. do 4 (split; [assumption|]). split; [apply (St 1%nat); cbn; lia|]. split; [apply (St 2%nat); cbn; lia|exact C].
Qed.

(** *** With a robust function shares are not harmless: each share gets a weight of
    its own. A pose at the origin, pulled to x = 1 and, twice as strongly, to x = -1 *)
Definition twice : nat -> nat -> R := fun i j => id3 i j + id3 i j.
Definition pulled : list pycall := [CNode STANDARD (P2 (mkV3 0 0 0)); CPose2d (mkV3 1 0 0) 0 id3; CPose2d (mkV3 (-1) 0 0) 0 twice].
Definition pulled_shares : list pycall := [CNode STANDARD (P2 (mkV3 0 0 0)); CPose2d (mkV3 1 0 0) 0 id3; CPose2d (mkV3 (-1) 0 0) 0 id3; CPose2d (mkV3 (-1) 0 0) 0 id3].
Lemma twice_proper n : proper n twice.
Proof.
  split. { intros i j _ _. unfold twice, id3. rewrite Nat.eqb_sym. reflexivity. } intros x. assert (Q : quad n twice x x = 2 * quad n id3 x x) by (unfold quad, twice; rewrite <- sumn_scal; apply sumn_ext; intros; rewrite <- sumn_scal; apply sumn_ext; intros; ring).
  rewrite Q. apply Rmult_le_pos; [lra|]. apply id3_proper.
Qed.
(** the step of a lone pose with priors, along x *)
Lemma lone_step lin rob cs m v s t : exact lin -> rob <> RANSAC -> typed [] cs -> Forall call_info cs -> Forall solid_call cs -> nodes_of cs = [(m, v)] -> m <> ANCHOR -> held cs 0 ->
  pycalls lin rob (solver_new world_new) cs = Some s -> state_of (s_w s) 0 = P2 (mkV3 0 0 0) -> solve lin GN 1 0 0 s = Some t ->
  exists D, lsum (flat_map facts cs) (f_g rob (state_of (s_w s)) (fun _ k => if Nat.eqb k 0 then 1 else 0)) = lsum (flat_map facts cs) (f_f rob (state_of (s_w s)) (fun _ k => if Nat.eqb k 0 then 1 else 0) D) /\
    exists x, state_of (s_w t) 0 = P2 x /\ vx x = - D 0%nat 0%nat.
Proof.
  intros X NR T P So Nc NA Hd E S0 Et. destruct (session_inv lin rob cs T) as (s0 & E0 & V & Fi). rewrite E in E0. injection E0 as <-. set (w := s_w s) in *. specialize (Fi So).
  pose proof (gd_wf _ (iv_good _ _ _ V)) as Wf. assert (On : one_step 0 w) by (apply (held_one rob cs); auto; rewrite Nc; intros [|i] Hi; auto; cbn in Hi; lia).
  assert (NS : forall b, build_problem false s = Some b -> nonsingular (g_stateDim (w_graph w)) (s_L b)) by (intros b Q; apply (gn_regular s b Wf); auto; intros x Z; apply On; fold w in Z; rewrite Z; ring).
  destruct (gn_step lin 1 0 0 s t Wf X NS Et) as (Gr & _ & d & Ed & U). fold w in Gr, Ed, U.
  assert (E0 : nth_error (nodes_of cs) 0 = Some (m, v)) by (rewrite Nc; reflexivity). destruct (mode_of rob cs w 0 m v V E0) as (l & G & M & Id & Es & K). destruct (standard_active rob cs w 0 m v l V E0 NA G) as [a Ha].
  exists (inc_of w d). split.
  - set (y := pack (ndim w) (g_active (w_graph w)) (fun _ k => if Nat.eqb k 0 then 1 else 0)). specialize (Ed y). rewrite (facts_rhs rob cs w V P NR), (facts_form rob cs w V P NR) in Ed.
    assert (Y : agree_d (fun i => i) 1 (state_of w) (inc_of w y) (fun _ k => if Nat.eqb k 0 then 1 else 0)).
    { intros [|i] k Hi Hk; [|lia]. unfold inc_of. rewrite G. rewrite (increments_at w y a l k Wf Ha). unfold y, col. rewrite (pack_at _ _ _ a l k Ha); auto. destruct (act_in rob cs w V l (nth_error_In _ _ Ha)) as (i & _ & Ii & _ & Dn). rewrite Dn. congruence. }
    assert (Al : forall f, In f (flat_map facts cs) -> alike (fun i => i) 1 (state_of w) (state_of w) f f).
    { intros [[cl ids] W] I. apply in_flat_map in I. destruct I as (c & Ic & I). unfold facts in I. destruct (call_factor c) as [f|] eqn:Ec; [|contradiction]. destruct I as [->|[]].
      rewrite <- (map_id ids) at 2. apply (alike_class (fun i => i)); [intros i _; reflexivity|]. rewrite <- (f_equal (@length _) Nc : _ = 1%nat). apply (ids_below rob cs w c cl ids W V Ic Ec). }
    transitivity (lsum (flat_map facts cs) (f_g rob (state_of w) (inc_of w y))).
    + apply lsum_ext. intros f I. apply (alike_costs _ _ _ _ rob f f (Al f I)). exact Y.
    + rewrite Ed. apply lsum_ext. intros f I. symmetry. apply (alike_costs _ _ _ _ rob f f (Al f I)); [exact Y|]. intros i k _ _. reflexivity.
  - specialize (U a l Ha). unfold state_of, get_node in *. rewrite Gr. rewrite G in S0 |- *. rewrite S0 in U. rewrite U. eexists. split; [reflexivity|]. cbn [vx wrap3 v3add dx3]. unfold inc_of, get_node. rewrite G. unfold increments, is_anchor. rewrite M. destruct m; [|congruence|]; ring.
Qed.
Lemma cauchy_weight c : 0 <= c -> robust_eval CAUCHY 0 (sqrt c) = 1 / (1 + c).
Proof. intros H. cbn [robust_eval]. rewrite sqrt_sqrt by auto. reflexivity. Qed.
Lemma prior_terms st D x W w : st 0%nat = P2 (mkV3 0 0 0) -> (W = id3 /\ w = 1 \/ W = twice /\ w = 2) ->
  f_c st (c_pose2d (mkV3 x 0 0), [0%nat], W) = w * (x * x) / 2 /\
  f_g CAUCHY st (fun _ k => if Nat.eqb k 0 then 1 else 0) (c_pose2d (mkV3 x 0 0), [0%nat], W) = - (w * x) / (1 + w * (x * x) / 2) /\
  f_f CAUCHY st (fun _ k => if Nat.eqb k 0 then 1 else 0) D (c_pose2d (mkV3 x 0 0), [0%nat], W) = w * D 0%nat 0%nat / (1 + w * (x * x) / 2).
Proof.
  intros S0 HW. assert (Z : wrap_angle (0 - 0) = 0). { rewrite Rminus_0_r. apply wrap_angle_id. pose proof PI_RGT_0. lra. }
  assert (C : f_c st (c_pose2d (mkV3 x 0 0), [0%nat], W) = w * (x * x) / 2).
  { unfold f_c. cbn [map]. rewrite S0. cbn [fc_res fc_dim c_pose2d]. unfold res_pose2d, wrap3, v3sub, l3, lvec. cbn [vx vy vz]. rewrite Z. destruct HW as [[-> ->]|[-> ->]]; unfold quad, twice, id3; cbn; field. }
  assert (Pc : 0 <= w * (x * x) / 2) by (destruct HW as [[_ ->]|[_ ->]]; nra). split; auto.
  unfold f_g, f_f, f_w. rewrite C, (cauchy_weight _ Pc). unfold f_jd. cbn [map]. rewrite S0. cbn [fc_res fc_dim fc_jac c_pose2d]. unfold res_pose2d, wrap3, v3sub, l3, lvec. cbn [vx vy vz]. rewrite Z.
  split; destruct HW as [[-> ->]|[-> ->]]; unfold quad, twice, id3; cbn; field; nra.
Qed.
Theorem C84_shares_robust_refuted : exists rob cs cs', rob <> RANSAC /\ typed [] cs /\ typed [] cs' /\ Forall call_info cs /\ Forall call_info cs' /\ Forall solid_call cs /\
  (forall i, (i < length (nodes_of cs))%nat -> held cs i) /\ nodes_of cs' = nodes_of cs /\ regrouped (flat_map measured cs) (flat_map measured cs') /\
  forall lin, exact lin -> exists s s' t t', pycalls lin rob (solver_new world_new) cs = Some s /\ pycalls lin rob (solver_new world_new) cs' = Some s' /\ state_of (s_w s') 0 = state_of (s_w s) 0 /\
  solve lin GN 1 0 0 s = Some t /\ solve lin GN 1 0 0 s' = Some t' /\ state_of (s_w t') 0 <> state_of (s_w t) 0.
Proof.
  exists CAUCHY, pulled, pulled_shares. assert (T : typed [] pulled) by (cbn; repeat split; auto; discriminate). assert (T' : typed [] pulled_shares) by (cbn; repeat split; auto; discriminate).
  assert (P : Forall call_info pulled) by (repeat (apply Forall_cons; [first [exact I | exact (id3_proper _) | exact (twice_proper _)]|]); apply Forall_nil). assert (P' : Forall call_info pulled_shares) by infos.
  assert (So : Forall solid_call pulled) by (repeat (apply Forall_cons; [exact I|]); apply Forall_nil). assert (So' : Forall solid_call pulled_shares) by (repeat (apply Forall_cons; [exact I|]); apply Forall_nil).
  assert (Hd : held pulled 0) by (eapply held_pose2d; [right; left; reflexivity|apply id3_positive]). assert (Hd' : held pulled_shares 0) by (eapply held_pose2d; [right; left; reflexivity|apply id3_positive]).
  split; [discriminate|]. do 5 (split; [assumption|]). split; [intros [|i] Hi; auto; cbn in Hi; lia|]. split; [reflexivity|]. split.
  - cbn. eapply rg_trans; [apply rg_order, perm_swap|]. eapply rg_trans; [apply (rg_shares _ id3 id3); intros i j; reflexivity|]. apply rg_order. cbn. eapply perm_trans; [apply perm_skip, perm_swap|apply perm_swap].
  - intros lin X. assert (Run : exists s, pycalls lin CAUCHY (solver_new world_new) pulled = Some s /\ state_of (s_w s) 0 = P2 (mkV3 0 0 0)) by (eexists; split; [cbv -[id3 twice IZR res_pose2d jac_pose2d lvec lmat l3 R0 R1]; reflexivity|reflexivity]).
    assert (Run' : exists s, pycalls lin CAUCHY (solver_new world_new) pulled_shares = Some s /\ state_of (s_w s) 0 = P2 (mkV3 0 0 0)) by (eexists; split; [cbv -[id3 twice IZR res_pose2d jac_pose2d lvec lmat l3 R0 R1]; reflexivity|reflexivity]).
    destruct Run as (s & E & S0). destruct Run' as (s' & E' & S0'). destruct (session_inv lin CAUCHY _ T) as (s0 & E0 & V & _). rewrite E in E0. injection E0 as <-. destruct (session_inv lin CAUCHY _ T') as (s0 & E0 & V' & _). rewrite E' in E0. injection E0 as <-.
    destruct (solve_total lin GN 1 0 0 s (gd_wf _ (iv_good _ _ _ V))) as [t Et]. destruct (solve_total lin GN 1 0 0 s' (gd_wf _ (iv_good _ _ _ V'))) as [t' Et']. exists s, s', t, t'. do 2 (split; [assumption|]). split; [congruence|]. do 2 (split; [assumption|]).
    destruct (lone_step lin CAUCHY pulled STANDARD (P2 (mkV3 0 0 0)) s t X ltac:(discriminate) T P So eq_refl ltac:(discriminate) Hd E S0 Et) as (D & Q & x & Ex & Vx).
    destruct (lone_step lin CAUCHY pulled_shares STANDARD (P2 (mkV3 0 0 0)) s' t' X ltac:(discriminate) T' P' So' eq_refl ltac:(discriminate) Hd' E' S0' Et') as (D' & Q' & x' & Ex' & Vx').
    unfold pulled, pulled_shares, facts, call_factor in Q, Q'. cbn [flat_map pycall_op app] in Q, Q'. repeat rewrite lsum_cons in Q. repeat rewrite lsum_cons in Q'. rewrite !lsum_nil in Q, Q'.
    destruct (prior_terms _ D 1 id3 1 S0 ltac:(auto)) as (_ & G1 & F1). destruct (prior_terms _ D (-1) twice 2 S0 ltac:(auto)) as (_ & G2 & F2). rewrite G1, G2, F1, F2 in Q.
    destruct (prior_terms _ D' 1 id3 1 S0' ltac:(auto)) as (_ & G1' & F1'). destruct (prior_terms _ D' (-1) id3 1 S0' ltac:(auto)) as (_ & G2' & F2'). rewrite G1', G2', F1', F2' in Q'.
    rewrite Ex, Ex'. intros Eq. injection Eq as Eq. rewrite Eq, Vx in Vx'. lra.
Qed.
Print Assumptions C84_shares_robust_refuted.
