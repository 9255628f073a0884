(** PlaneRegistration: derivatives along update_state. *)
Require Import Reals List Arith Lia Lra Psatz Bool.
From Verif Require Import Lin LinFacts SO3 SE3 SpecGeom SO3Exp SO3Ln SE3Ops SE3Alg SE3Exp SE3Ln Sums Nodes Robust Graph Solve Session Factors SpecFactors FactorsDer Factors3D Factors3DLn FactorsSession DenseProofs SE3Tangent.
From Verif Require Import Registration SpecRegistration ArunProofs RegistrationMore Optimizer OptimizerProofs Planes SpecPlanes PlanesProofs PlanesEigen PlanesMore PlanesHess SpecPlaneReg PlaneRegProofs PlaneRegMore PlaneRegSolve PlaneRegInit PlaneRegGrad PropSE3.
Import ListNotations.
Local Open Scope R_scope.

(** ** Definedness *)
Lemma gradient_sizes k h r r1 q : after k h r -> (2 <= fst h)%nat -> pr_gradient_hessian (k_eigs k) r = Some (r1, q) -> sizes (fst h) (snd h).
Proof.
  intros AF N E. destruct (after_length k h r AF ltac:(lia)) as [NP LT]. destruct (af_tracked _ _ _ AF) as [_ TK].
  unfold pr_gradient_hessian, get_current_error in E. destruct (estimate_all _ (pr_traj r) (pr_planes r)) as [[e l1]|] eqn:EA; [|discriminate]. cbn [option_map fst snd with_planes pr_planes] in E.
  destruct (gh_poses _ _ l1) as [[[g0 h0] l2]|] eqn:EG; [|discriminate]. clear E. rewrite NP in EG.
  pose proof (looked_all _ _ _ _ _ (like_well _ _ _ TK) EA) as LK. destruct (gh_poses_looked _ _ _ _ _ _ _ _ _ LK EG) as (_ & LEN & _).
  specialize (LEN (fst h - 1)%nat ltac:(apply in_seq; lia)). pose proof (estimated_fits _ _ _ _ _ _ TK EA) as FT. clear - TK FT LT LEN N.
  revert FT LEN. generalize (fst h), LT, N. clear LT N. intros n LT N. induction TK as [|[i [m ops]] [j p] h' l (E & L) F IH]; intros FT LEN; constructor; inversion FT as [|? ? F1 F2]; inversion LEN as [|? ? L1 L2]; subst; [|apply IH; auto].
  cbn [fst snd] in *. unfold Q_of in L1. rewrite map_length, combine_length, (like_used _ _ _ _ L), map_length, used_length in L1. lia.
Qed.
Lemma gradient_defined k h r : after k h r -> (0 < fst h)%nat -> sizes (fst h) (snd h) -> exists r1 g H, pr_gradient_hessian (k_eigs k) r = Some (r1, (6%nat, g, H)).
Proof.
  intros AF N SZ. pose proof (after_ready k h r AF N SZ) as RD. destruct (ready_error (k_eigs k) _ r RD) as (e & r' & E & RD' & M & _). unfold pr_gradient_hessian. rewrite E.
  destruct RD as (_ & NP & _). rewrite NP.
  destruct (gh_poses_defined (fst h) (fst h) (seq 1 (fst h - 1)) (pr_planes r')) as (g & H & l & EG); [intros t I; apply in_seq in I; lia | exact M|]. rewrite EG. eauto.
Qed.
(** ** Two poses *)
Lemma v6_of_scal s xi : v6_of (fun i => s * v6_nth xi i) = v6scal s xi.
Proof. destruct xi as [[? ? ?] [? ? ?]]. reflexivity. Qed.
Lemma update_path n r T s xi : (0 < n)%nat -> pr_nposes r = n -> length (pr_traj r) = n -> nth_error (pr_traj r) (n - 1) = Some T ->
  pr_update_state (fun i => s * v6_nth xi i) r = Some (with_traj r (path n (se3_update_lhs T (v6scal s xi)) (pr_traj r))).
Proof.
  intros N NP LT ET. unfold pr_update_state, move_last. rewrite (last_length n _ LT), ET. cbv zeta. rewrite NP, middle_path, v6_of_scal by auto. reflexivity.
Qed.
Lemma path_two tr T s xi : length tr = 2%nat -> Forall hom4 tr -> nth_error tr 1 = Some T -> path 2 (se3_update_lhs T (v6scal s xi)) tr = sway 2 xi s tr.
Proof.
  intros LT HM ET. apply nth_error_ext. intros t. rewrite sway_nth by auto. destruct t as [|[|t]].
  - rewrite path_nth by (auto; lia). cbn [Nat.eqb Nat.sub]. destruct (nth_error tr 0) as [T0|] eqn:E0; [|reflexivity]. cbn [option_map INR]. unfold Rdiv. rewrite Rmult_0_l, Rmult_0_r, scal_zero, update_zero; auto.
    rewrite Forall_forall in HM. apply HM. eapply nth_error_In; eauto.
  - rewrite path_nth by (auto; lia). rewrite ET. cbn [Nat.eqb Nat.sub option_map INR]. replace (s * (1 / 1)) with s by field. reflexivity.
  - rewrite (proj2 (nth_error_None tr (S (S t)))) by lia. cbn [option_map]. apply nth_error_None. rewrite path_length. lia.
Qed.
(** ** Three poses: velocity of the pose in the middle *)
Lemma v3_cont w dw e : v3_derivative w 0 dw -> w 0 = v3zero -> 0 < e -> exists d, 0 < d /\ forall s, Rabs (s - 0) < d -> v3norm (w s) < e.
Proof.
  intros (H1 & H2 & H3) Z He. apply small_o_of in H1, H2, H3. set (a := Rabs (vx dw) + Rabs (vy dw) + Rabs (vz dw) + 3).
  assert (A : 0 < a) by (unfold a; pose proof (Rabs_pos (vx dw)); pose proof (Rabs_pos (vy dw)); pose proof (Rabs_pos (vz dw)); lra).
  destruct (H1 1 ltac:(lra)) as (d1 & D1 & B1), (H2 1 ltac:(lra)) as (d2 & D2 & B2), (H3 1 ltac:(lra)) as (d3 & D3 & B3).
  exists (Rmin (Rmin d1 d2) (Rmin d3 (e / (2 * a)))). assert (0 < e / (2 * a)) by (apply Rdiv_lt_0_compat; lra).
  split; [repeat apply Rmin_glb_lt; auto|]. intros s Hs. rewrite Rminus_0_r in Hs.
  pose proof (Rmin_l (Rmin d1 d2) (Rmin d3 (e / (2 * a)))). pose proof (Rmin_r (Rmin d1 d2) (Rmin d3 (e / (2 * a)))). pose proof (Rmin_l d1 d2). pose proof (Rmin_r d1 d2). pose proof (Rmin_l d3 (e / (2 * a))). pose proof (Rmin_r d3 (e / (2 * a))).
  specialize (B1 s ltac:(lra)). specialize (B2 s ltac:(lra)). specialize (B3 s ltac:(lra)). rewrite Z in B1, B2, B3. cbn [v3zero vx vy vz] in B1, B2, B3.
  assert (Q : forall x y, Rabs (x - 0 - s * y) <= 1 * Rabs s -> Rabs x <= Rabs s * (Rabs y + 1)).
  { intros x y K. replace x with ((x - 0 - s * y) + s * y) by ring. eapply Rle_trans; [apply Rabs_triang|]. rewrite Rabs_mult. lra. }
  apply Q in B1, B2, B3. assert (SE : Rabs s * (2 * a) < e). { assert (K : Rabs s < e / (2 * a)) by lra. apply (Rmult_lt_compat_r (2 * a)) in K; [|lra]. unfold Rdiv in K. rewrite Rmult_assoc, Rinv_l in K by lra. lra. }
  unfold v3norm. assert (N : v3sqn (w s) <= (Rabs (vx (w s)) + Rabs (vy (w s)) + Rabs (vz (w s)))²).
  { unfold v3sqn, v3dot, Rsqr. pose proof (Rabs_pos (vx (w s))). pose proof (Rabs_pos (vy (w s))). pose proof (Rabs_pos (vz (w s))).
    replace (vx (w s) * vx (w s)) with (Rabs (vx (w s)) * Rabs (vx (w s))) by (rewrite <- Rabs_mult; apply Rabs_pos_eq; nra).
    replace (vy (w s) * vy (w s)) with (Rabs (vy (w s)) * Rabs (vy (w s))) by (rewrite <- Rabs_mult; apply Rabs_pos_eq; nra).
    replace (vz (w s) * vz (w s)) with (Rabs (vz (w s)) * Rabs (vz (w s))) by (rewrite <- Rabs_mult; apply Rabs_pos_eq; nra). nra. }
  apply Rle_lt_trans with (Rabs (vx (w s)) + Rabs (vy (w s)) + Rabs (vz (w s))).
  - rewrite <- (sqrt_Rsqr (Rabs (vx (w s)) + Rabs (vy (w s)) + Rabs (vz (w s)))); [apply sqrt_le_1_alt; auto|]. pose proof (Rabs_pos (vx (w s))). pose proof (Rabs_pos (vy (w s))). pose proof (Rabs_pos (vz (w s))). lra.
  - pose proof (Rabs_pos s). unfold a in *. nra.
Qed.
Lemma se3_of_vec_curve w v dw dv : v3_derivative w 0 dw -> v3_derivative v 0 dv -> w 0 = v3zero ->
  m4_derivative (fun s => se3_of_vec (mkV6 (w s) (v s))) 0 (mkM4 (hat3 dw) (v3add dv (v3scal (1/2) (v3cross dw (v 0)))) v3zero 0).
Proof.
  intros HW HV W0. destruct (v3_cont w dw (1 / 100000) HW W0 ltac:(lra)) as (d & Hd & H).
  eapply m4_der_near with (F := fun s => se3_of_Rt (rod (1 - v3sqn (w s) * / 6) (/ 2 - v3sqn (w s) * / 24) (w s)) (m3app (rod (/ 2 - v3sqn (w s) * / 24) (/ 6 - v3sqn (w s) * / 120) (w s)) (v s))); [exact Hd | |].
  { intros s Hs. rewrite se3_of_vec_block. cbn [v6w v6v]. pose proof (exp_small_coeffs (w s) 1) as C. rewrite Rabs_R1, Rmult_1_l in C. destruct (C (H s Hs)) as [C1 C2].
    replace (v3scal 1 (w s)) with (w s) in C1, C2 by (generalize (w s); clear; lin). rewrite C1, C2. f_equal; [|f_equal]; f_equal; field. }
  destruct HW as (W1 & W2 & W3), HV as (V1 & V2 & V3). assert (E1 : vx (w 0) = 0) by (rewrite W0; reflexivity). assert (E2 : vy (w 0) = 0) by (rewrite W0; reflexivity). assert (E3 : vz (w 0) = 0) by (rewrite W0; reflexivity).
  unfold m4_derivative, m3_derivative, v3_derivative, rod, hat3, se3_of_Rt, Rdiv. lc.
  repeat match goal with |- _ /\ _ => split end; (eapply dl_eq; [der | cbv beta; rewrite ?E1, ?E2, ?E3; field]).
Qed.
Lemma middle_der xi a tau : let F := fun s => se3_update_lhs (se3_of_Rt m3id a) (v6scal s xi) in
  m4_derivative (fun s => se3_of_vec (v6scal tau (se3_ln_vee (F s)))) 0
    (mkM4 (hat3 (v3scal tau (v6w xi))) (v3add (v3scal tau (v3add (v6v xi) (v3scal (1/2) (v3cross (v6w xi) a)))) (v3scal (1/2 * tau * tau) (v3cross (v6w xi) a))) v3zero 0).
Proof.
  intros F. assert (HA : rigid (se3_of_Rt m3id a)) by (split; [apply rotation_id | split; reflexivity]).
  assert (HS : forall s, short (F s)) by (intros s; apply short_mul; [apply se3_of_vec_short | apply rigid_short, HA]).
  assert (F0 : F 0 = se3_of_Rt m3id a) by (unfold F; rewrite scal_zero; apply update_zero; split; reflexivity).
  assert (HI : mR (F 0) = m3id) by (rewrite F0; reflexivity).
  assert (HD : m4_derivative F 0 (m4mul (twist xi) (se3_of_Rt m3id a))) by (apply update_tangent; split; reflexivity).
  destruct (ln_der F HS HI _ HD) as [DW DV]. rewrite F0 in DV.
  assert (L0 : se3_ln_vee (F 0) = mkV6 v3zero a). { rewrite F0. rewrite <- (se3_exp_zero_rot a). apply C14_ln_of_exp_zero. }
  assert (SK : v3scal (1/2) (sk (mR (m4mul (twist xi) (se3_of_Rt m3id a)))) = v6w xi).
  { destruct xi as [[x y z] [u v w]]. destruct a. unfold sk, twist, se3_of_Rt. lin_unfold. f_equal; field. }
  assert (TD : mt (m4mul (twist xi) (se3_of_Rt m3id a)) = v3add (v3cross (v6w xi) a) (v6v xi)).
  { destruct xi as [[x y z] [u v w]]. destruct a. unfold twist, se3_of_Rt. lin_unfold. f_equal; ring. }
  rewrite SK in DW, DV. rewrite TD in DV. cbn [mt se3_of_Rt] in DV.
  pose proof (se3_of_vec_curve (fun s => v3scal tau (v6w (se3_ln_vee (F s)))) (fun s => v3scal tau (v6v (se3_ln_vee (F s)))) (v3scal tau (v6w xi))
    (v3scal tau (v3sub (v3add (v3cross (v6w xi) a) (v6v xi)) (v3scal (1 / 2) (v3cross (v6w xi) a))))) as C.
  cbv beta in C. rewrite L0 in C. cbn [v6w v6v] in C.
  assert (SC : forall (f : R -> V3) d, v3_derivative f 0 d -> v3_derivative (fun s => v3scal tau (f s)) 0 (v3scal tau d)).
  { intros f d (A1 & A2 & A3). unfold v3_derivative. lc. repeat split; (eapply dl_eq; [der | cbv beta; ring]). }
  eapply m4_der_eq; [apply C|].
  - apply (SC (fun s => v6w (se3_ln_vee (F s)))). exact DW.
  - apply (SC (fun s => v6v (se3_ln_vee (F s)))). exact DV.
  - clear. lin.
  - apply m4_eq; try reflexivity. cbn [mt]. destruct xi as [[x y z] [u v w]]. destruct a. cbn [v6w v6v]. lin_unfold. f_equal; field.
Qed.

(** ** A plane seen from three poses *)
Definition scan0 : list V3 := [mkV3 3 (-1/2) 0; mkV3 (-3) (-1/2) 0; mkV3 0 (-1/2) 3; mkV3 0 (-1/2) (-3)].
Definition scan1 : list V3 := [mkV3 2 (1/2) 0; mkV3 (-4) (1/2) 0; mkV3 (-1) (1/2) 3; mkV3 (-1) (1/2) (-3)].
Definition ahead : V3 := mkV3 2 0 0.
Definition turn : V6 := mkV6 (mkV3 0 0 1) v3zero.
Definition swing : list reg_op := [RSet 1 3; RNew 0] ++ map (RPush 0 0) scan0 ++ map (RPush 0 1) scan1 ++ [RLast (se3_of_Rt m3id ahead)].
Definition swing_traj : list M4 := [m4id; se3_of_Rt m3id (mkV3 1 0 0); se3_of_Rt m3id ahead].
Lemma swing_building : Forall building swing. Proof. repeat constructor. Qed.
Lemma swing_history : history swing = (3%nat, [(0%nat, (3%nat, map (fun x => Push x 0) scan0 ++ map (fun x => Push x 1) scan1))]). Proof. reflexivity. Qed.
Lemma swing_used : used 3 (map (fun x => Push x 0) scan0 ++ map (fun x => Push x 1) scan1) = [scan0; scan1; []]. Proof. reflexivity. Qed.
Lemma swing_cloud u : cloud_error u swing_traj [scan0; scan1; []] = 36 * vx (v4h u) * vx (v4h u) + 2 * vy (v4h u) * vy (v4h u) + 36 * vz (v4h u) * vz (v4h u) + 8 * v4l u * v4l u.
Proof.
  destruct u as [[x y z] w]. unfold cloud_error, swing_traj, scan0, scan1, ahead, plane_at, move, se3_of_Rt, lsum. cbn [combine fold_right map fst snd]. lin_unfold. field.
Qed.
Lemma swing_sole : sole_least (fun u => cloud_error u swing_traj [scan0; scan1; []]).
Proof.
  exists (mkV4 (mkV3 0 1 0) 0), 2. split; [unfold unit4; lin|]. split; [rewrite swing_cloud; cbn; ring|]. split.
  - intros [[x y z] w] U. rewrite swing_cloud. unfold unit4, v4dot, v3dot in U. cbn in *. nra.
  - exists 6. split; [lra|]. intros [[x y z] w] U. rewrite swing_cloud. unfold v4dot, v3dot in *. cbn in *. assert (y = 0) as -> by lra. nra.
Qed.
Lemma swing_only u : unit4 u -> (forall w, unit4 w -> cloud_error u swing_traj [scan0; scan1; []] <= cloud_error w swing_traj [scan0; scan1; []]) ->
  vx (v4h u) = 0 /\ vz (v4h u) = 0 /\ v4l u = 0 /\ vy (v4h u) * vy (v4h u) = 1.
Proof.
  intros U M. specialize (M (mkV4 (mkV3 0 1 0) 0) ltac:(unfold unit4; lin)). rewrite !swing_cloud in M. destruct u as [[x y z] w]. unfold unit4, v4dot, v3dot in U. cbn in *.
  assert (x * x = 0) by nra. assert (z * z = 0) by nra. assert (w * w = 0) by nra. repeat split; nra.
Qed.
Lemma ln_translation a : se3_ln_vee (se3_of_Rt m3id a) = mkV6 v3zero a.
Proof. rewrite <- (se3_exp_zero_rot a). apply C14_ln_of_exp_zero. Qed.
Lemma exp_translation a tau : se3_of_vec (v6scal tau (mkV6 v3zero a)) = se3_of_Rt m3id (v3scal tau a).
Proof. replace (v6scal tau (mkV6 v3zero a)) with (mkV6 v3zero (v3scal tau a)) by (destruct a; lin). apply se3_exp_zero_rot. Qed.
Lemma push_frame k o r r' : (exists i t x, o = RPush i t x) -> reg_step k o r = Some r' -> pr_traj r' = pr_traj r /\ pr_nposes r' = pr_nposes r.
Proof. intros (i & t & x & ->) E. cbn in E. unfold plane_push_back_point in E. destruct (push_in i t x (pr_planes r)); [|discriminate]. cbn in E. injection E as <-. auto. Qed.
Lemma pushes_frame k ops r r' : Forall (fun o => exists i t x, o = RPush i t x) ops -> reg_run k ops r = Some r' -> pr_traj r' = pr_traj r /\ pr_nposes r' = pr_nposes r.
Proof.
  intros F. revert r. induction F as [|o ops H F IH]; intros r E; cbn [reg_run] in E; [injection E as <-; auto|].
  destruct (reg_step k o r) as [r1|] eqn:E1; [|discriminate]. destruct (push_frame k o r r1 H E1) as [A B]. destruct (IH r1 E) as [C D]. split; congruence.
Qed.
Lemma pushes_then_last k np n i ops T r : Forall (fun o => exists i t x, o = RPush i t x) ops -> (2 <= n)%nat -> reg_run k ([RSet np n; RNew i] ++ ops ++ [RLast T]) preg_new = Some r ->
  pr_traj r = interpolate n (se3_ln_vee T) 1 n (repeat m4id n).
Proof.
  intros F N E. rewrite reg_run_app in E. destruct (reg_run k [RSet np n; RNew i] preg_new) as [r0|] eqn:E0; [|discriminate]. cbn [reg_run reg_step] in E0. injection E0 as <-.
  rewrite reg_run_app in E. destruct (reg_run k ops _) as [r1|] eqn:E1; [|discriminate]. destruct (pushes_frame _ _ _ _ F E1) as [A B]. cbn in A, B.
  cbn [reg_run reg_step] in E. unfold set_last_pose in E. rewrite B, A, repeat_length, Nat.leb_refl in E. replace (n <=? 1)%nat with false in E by (symmetry; apply Nat.leb_gt; lia). injection E as <-. reflexivity.
Qed.
Lemma swing_run k : exists r, reg_run k swing preg_new = Some r /\ pr_traj r = swing_traj.
Proof.
  destruct (enabled_run k swing) as (r & E & _); [repeat (split; [cbn; auto|]); exact I|]. exists r. split; auto.
  assert (F : Forall (fun o => exists i t x, o = RPush i t x) (map (RPush 0 0) scan0 ++ map (RPush 0 1) scan1)) by (repeat constructor; eauto).
  unfold swing in E. rewrite (app_assoc (map (RPush 0 0) scan0)) in E. rewrite (pushes_then_last k 1 3 0 _ _ r F ltac:(lia) E). rewrite ln_translation. unfold interpolate. cbn [repeat length seq combine map fst snd Nat.leb Nat.ltb andb].
  unfold interpolated. rewrite !exp_translation. cbn [Nat.sub INR]. unfold swing_traj. apply f_equal2; [reflexivity|]. apply f_equal2; [|apply f_equal2; [|reflexivity]]; unfold ahead, se3_of_Rt; f_equal; lin_unfold; f_equal; field.
Qed.
(** the two velocities of the trajectory *)
Definition swing_curves : list (R -> M4) :=
  [fun _ => m4id; fun s => se3_of_vec (v6scal (1 / 2) (se3_ln_vee (se3_update_lhs (se3_of_Rt m3id ahead) (v6scal s turn)))); fun s => se3_update_lhs (se3_of_Rt m3id ahead) (v6scal s turn)].
Definition swing_dots (y : R) : list M4 := [m4zero; mkM4 (hat3 (mkV3 0 0 (1/2))) (mkV3 0 y 0) v3zero 0; m4mul (twist turn) (se3_of_Rt m3id ahead)].
Lemma swing_curves_at tr s : tr = swing_traj -> path 3 (se3_update_lhs (se3_of_Rt m3id ahead) (v6scal s turn)) tr = at_s swing_curves s.
Proof.
  intros ->. apply nth_error_ext. intros t. destruct t as [|[|[|t]]]; [| | |].
  - rewrite path_nth by (cbn; lia). reflexivity.
  - rewrite path_nth by (cbn; lia). cbn [Nat.eqb Nat.sub]. unfold interpolated, at_s, swing_curves. cbn [map nth_error Nat.sub INR]. replace (1 / (1 + 1) * 1) with (1 / 2) by field. reflexivity.
  - rewrite path_nth by (cbn; lia). reflexivity.
  - transitivity (@None M4); [apply nth_error_None; rewrite path_length; cbn; lia | symmetry; apply nth_error_None; cbn; lia].
Qed.
Lemma swing_at_0 : at_s swing_curves 0 = swing_traj.
Proof.
  unfold at_s, swing_curves. cbn [map]. rewrite scal_zero, update_zero by (split; reflexivity). rewrite ln_translation, exp_translation. unfold swing_traj, ahead, se3_of_Rt. repeat (apply f_equal2; [try reflexivity|]); try reflexivity. f_equal. lin_unfold. f_equal; field.
Qed.
Lemma swing_hom s : Forall hom4 (at_s swing_curves s).
Proof. repeat constructor; try reflexivity; unfold at_s, swing_curves; try (rewrite se3_of_vec_block; reflexivity); apply update_hom; split; reflexivity. Qed.
Lemma swing_der : Forall2 (fun c D => m4_derivative c 0 D) swing_curves (swing_dots (3 / 4)).
Proof.
  constructor; [exact (m4_der_const m4id)|]. constructor; [|constructor; [|constructor]].
  - eapply m4_der_eq; [apply (middle_der turn ahead (1 / 2))|]. unfold turn, ahead. cbn [v6w v6v]. apply m4_eq; try reflexivity; [f_equal; lin_unfold; f_equal; field | cbn [mt]; lin_unfold; f_equal; field].
  - apply update_tangent. split; reflexivity.
Qed.
(** sum of (plane value) * (velocity of the plane value) *)
Lemma quad_conj_dot T D l v : quad4 (conj_dot T D (matrix_S l)) v = lsum l (fun x => 2 * (v4dot v (m4app T (hom x)) * v4dot v (m4app D (hom x)))).
Proof.
  rewrite matrix_S_msum. induction l as [|x l IH]; cbn [map msum fold_right].
  - rewrite lsum_nil. unfold conj_dot, quad4. replace (m4mul (m4mul D m4zero) (m4tr T)) with m4zero by (clear; lin). replace (m4mul (m4mul T m4zero) (m4tr D)) with m4zero by (clear; lin). destruct v as [[? ? ?] ?]. lin.
  - rewrite lsum_cons, <- IH. fold (msum (map (fun p => outer4 (hom p) (hom p)) l)). generalize (msum (map (fun p => outer4 (hom p) (hom p)) l)). intros M. clear.
    assert (A : conj_dot T D (m4add (outer4 (hom x) (hom x)) M) = m4add (conj_dot T D (outer4 (hom x) (hom x))) (conj_dot T D M)) by (unfold conj_dot; rewrite !m4mul_add_l, !m4mul_add_r, !m4add_assoc; apply f_equal; rewrite <- !m4add_assoc; apply (f_equal (fun Z => m4add Z _)); apply m4add_comm).
    rewrite A, quad4_add. f_equal. generalize (hom x). clear. intros h. unfold conj_dot. rewrite quad4_add.
    assert (B : forall P Q, quad4 (m4mul (m4mul P (outer4 h h)) (m4tr Q)) v = v4dot v (m4app P h) * v4dot v (m4app Q h)).
    { intros P Q. clear. destruct P as [[] [] [] ?], Q as [[] [] [] ?], v as [[] ?], h as [[] ?]. unfold quad4, outer4. lin_unfold. ring. }
    rewrite !B. ring.
Qed.
Lemma swing_rate y v : vx (v4h v) = 0 -> vz (v4h v) = 0 -> v4l v = 0 -> vy (v4h v) * vy (v4h v) = 1 ->
  quad4 (dot_sum swing_traj (swing_dots y) (map matrix_S [scan0; scan1; []])) v = 4 * (y - 1 / 2).
Proof.
  destruct v as [[a b c] d]. cbn [v4h v4l vx vy vz]. intros -> -> -> B. transitivity ((b * b) * (4 * (y - 1 / 2))); [|rewrite B; ring]. clear B.
  unfold swing_traj, swing_dots. cbn [map dot_sum]. rewrite !quad4_add, !quad_conj_dot. unfold scan0, scan1. rewrite !lsum_cons, !lsum_nil.
  replace (quad4 m4zero (mkV4 (mkV3 0 b 0) 0)) with 0 by (unfold quad4; lin). unfold hom, turn, ahead, twist, se3_of_Rt, hat3. lin_unfold. field.
Qed.
(** the code's direction is stationary, the error is not *)
Lemma swing_wrong k : (forall Q, m4tr Q = Q -> exact4 (k_eigs k) Q) -> exists r r1 g H, reg_run k swing preg_new = Some r /\ pr_traj r = swing_traj /\
  pr_gradient_hessian (k_eigs k) r = Some (r1, (6%nat, g, H)) /\ sumn 6 (fun i => g i * v6_nth turn i) = 0 /\
  derivable_pt_lim (fun s => match pr_update_state (fun i => s * v6_nth turn i) r with Some r' => match get_current_error (k_eigs k) r' with Some (e, _) => e | None => 0 end | None => 0 end) 0 1.
Proof.
  intros X. destruct (swing_run k) as (r & E & TR). assert (OK : Forall reg_ok swing) by (eapply Forall_impl; [|exact swing_building]; intros o; destruct o; cbn; tauto).
  pose proof (after_run k swing r OK E) as AF. pose proof swing_history as HI. rewrite HI in AF. destruct (af_tracked _ _ _ AF) as [NP TK]. cbn [fst snd] in NP, TK.
  destruct (gradient_defined k _ r AF ltac:(cbn; lia) ltac:(repeat constructor)) as (r1 & g & H & EG). exists r, r1, g, H. do 3 (split; [assumption|]).
  assert (LT : length (pr_traj r) = 3%nat) by (rewrite TR; reflexivity).
  assert (SL : Forall (fun q : entry => sole_least (fun u => cloud_error u swing_traj (used (fst (snd q)) (snd (snd q))))) [(0%nat, (3%nat, map (fun x => Push x 0) scan0 ++ map (fun x => Push x 1) scan1))]).
  { constructor; [|constructor]. pose proof swing_sole as SW. rewrite <- swing_used in SW. exact SW. }
  assert (HM : Forall hom4 swing_traj) by (repeat constructor; reflexivity).
  assert (PL : exists p, pr_planes r = [(0%nat, p)] /\ S_used p = map matrix_S [scan0; scan1; []]).
  { inversion TK as [|a [j p] ? l (EJ & L) TN]; subst. inversion TN; subst. exists p. cbn [fst snd] in *. subst j. split; auto. rewrite (like_used _ _ _ _ L). apply f_equal. exact swing_used. }
  destruct PL as (p & PP & SU).
  assert (VV : let v := e4_vec (k_eigs k (acc_of swing_traj p)) in vx (v4h v) = 0 /\ vz (v4h v) = 0 /\ v4l v = 0 /\ vy (v4h v) * vy (v4h v) = 1).
  { intros v. assert (AC : acc_of swing_traj p = scatter swing_traj [scan0; scan1; []]) by (apply acc_scatter; auto). pose proof (X _ (scatter_sym swing_traj [scan0; scan1; []])) as EX.
    destruct (eigen_least _ _ EX) as [[_ M] QE]. destruct EX as (U & _). rewrite <- AC in *. unfold v. apply swing_only; [exact U|]. intros w W. rewrite <- !quad4_scatter, <- AC. rewrite QE. apply M. auto. }
  cbv zeta in VV. destruct VV as (V1 & V2 & V3 & V4). split.
  - pose proof (gradient_swayed (k_eigs k) _ r r1 g H 3 TK NP LT ltac:(lia) ltac:(rewrite TR; exact HM) X ltac:(rewrite TR; exact SL) EG turn) as D1. rewrite TR, PP in D1.
    pose proof (ecost_der (k_eigs k) _ (pr_planes r) (sway_curves 3 turn swing_traj) (sway_dots 3 turn swing_traj) X TK) as D2. rewrite PP in D2.
    assert (D3 : derivable_pt_lim (fun s => ecost (k_eigs k) (sway 3 turn s swing_traj) [(0%nat, p)]) 0 0).
    { eapply dl_ext; [intros s; rewrite <- sway_at; reflexivity|]. rewrite sway_at, (sway_0 3 turn swing_traj eq_refl HM) in D2. eapply dl_eq; [apply D2|].
      - intros s. rewrite sway_at. apply sway_hom. auto.
      - apply sway_der. auto.
      - exact SL.
      - rewrite lsum_cons, lsum_nil. cbn [snd]. rewrite SU. replace (sway_dots 3 turn swing_traj) with (swing_dots (1 / 2)).
        + rewrite (swing_rate (1 / 2) _ V1 V2 V3 V4). ring.
        + unfold sway_dots, swing_dots, swing_traj, turn, ahead. cbn [seq combine map fst snd Nat.sub INR]. repeat apply f_equal2; try reflexivity; unfold twist, se3_of_Rt, hat3; lin_unfold; f_equal; f_equal; field. }
    exact (uniqueness_limite _ _ _ _ D1 D3).
  - eapply dl_ext; [intros s; rewrite (update_path 3 r (se3_of_Rt m3id ahead) s turn) by (auto; try lia; rewrite TR; reflexivity); rewrite (error_at (k_eigs k) _ r _ TK) by (rewrite path_length, LT; repeat constructor); rewrite (swing_curves_at _ s TR); reflexivity|].
    pose proof (ecost_der (k_eigs k) _ (pr_planes r) swing_curves (swing_dots (3 / 4)) X TK swing_hom swing_der) as D2. rewrite swing_at_0 in D2.
    eapply dl_eq; [apply D2; exact SL|]. rewrite PP, lsum_cons, lsum_nil. cbn [snd]. rewrite SU, (swing_rate (3 / 4) _ V1 V2 V3 V4). field.
Qed.
