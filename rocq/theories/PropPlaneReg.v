(** C68-C72: plane registration over a trajectory. *)
Require Import Reals List Arith Lia Lra Psatz Bool.
From Verif Require Import Lin LinFacts SO3 SE3 SpecGeom SE3Ops SE3Alg SE3Exp Sums Factors3DLn.
From Verif Require Import Registration SpecRegistration RegistrationProofs ArunProofs RegistrationMore Spectral Optimizer OptimizerProofs Planes SpecPlanes PlanesProofs PlanesEigen PlanesMore.
From Verif Require Import SpecPlaneReg PlaneRegProofs PlaneRegMore PlaneRegSolve PlaneRegInit PlaneRegBox PlaneRegMis PropRegistration PropSE3.
Import ListNotations.
Local Open Scope R_scope.

(** ** C68 *)
(** Programs that respect the documented conditions never throw. *)
Theorem C68_defined : forall k ops, enabled_all (0%nat, []) ops -> exists r, reg_run k ops preg_new = Some r.
Proof. intros k ops H. destruct (enabled_run k ops H) as (r & E & _). eauto. Qed.
Print Assumptions C68_defined.
(** After any program: planes are known by distinct ids, in the order in which
    they were added; pushing a point throws exactly for an unknown id; the total
    is the number of points accepted; the cloud of a time is what was pushed
    for that time, plane by plane. *)
Theorem C68_accounting : forall k ops r, Forall reg_ok ops -> reg_run k ops preg_new = Some r ->
  map fst (pr_planes r) = map fst (planes_of ops) /\ NoDup (map fst (pr_planes r)) /\
  (forall i t x, plane_push_back_point i t x r = None <-> known i (planes_of ops) = false) /\
  fst (calculate_total_number_points r) = list_sum (map (fun q => count_pushed (fst (snd q)) (snd (snd q))) (planes_of ops)) /\
  (forall t, Forall (fun q => (t < fst (snd q))%nat) (planes_of ops) -> get_point_cloud t r = Some (flat_map (fun q => pushed (snd (snd q)) t) (planes_of ops))).
Proof.
  intros k ops r F E. destruct (af_tracked _ _ _ (after_run k ops r F E)) as [_ TK]. fold (planes_of ops) in TK.
  assert (ID : map fst (pr_planes r) = map fst (planes_of ops)) by (clear - TK; induction TK as [|a q h l (A & _) T IH]; cbn [map]; congruence).
  split; [exact ID|]. split; [rewrite ID; apply history_nodup|]. split; [|split].
  - intros i t x. unfold plane_push_back_point. rewrite <- (push_defined _ i t x _ _ TK). destruct (push_in i t x (pr_planes r)); cbn; split; congruence.
  - exact (counted _ _ _ TK).
  - intros t Ht. unfold get_point_cloud. rewrite (cloud_at _ t _ _ TK Ht). cbn [option_map]. rewrite <- flat_map_concat_map. reflexivity.
Qed.
Print Assumptions C68_accounting.
(** get_current_error is defined exactly when no plane was made for more poses
    than the trajectory has; with exact eigenvectors it is the sum over the
    planes of the least error of a plane over the points in use.  Evaluating it
    again gives the same value and moves no pose. *)
Theorem C68_error : forall k ops r, Forall reg_ok ops -> reg_run k ops preg_new = Some r -> (0 < poses_of ops)%nat ->
  ((exists e r', get_current_error (k_eigs k) r = Some (e, r')) <-> fits (poses_of ops) (planes_of ops)) /\
  (forall e r', get_current_error (k_eigs k) r = Some (e, r') ->
    pr_traj r' = pr_traj r /\ (exists r'', get_current_error (k_eigs k) r' = Some (e, r'')) /\
    ((forall Q, m4tr Q = Q -> exact4 (k_eigs k) Q) -> total_error (pr_traj r) (planes_of ops) e)).
Proof.
  intros k ops r F E N. pose proof (after_run k ops r F E) as AF. destruct (after_length k _ r AF N) as [_ LT]. destruct (af_tracked _ _ _ AF) as [_ TK]. unfold planes_of, poses_of. split; [split|].
  - intros (e & r' & G). unfold get_current_error in G. destruct (estimate_all _ _ _) as [[e1 l1]|] eqn:EE; [|discriminate]. rewrite <- LT. eapply estimated_fits; eauto.
  - intros FT. rewrite <- LT in FT. destruct (estimated_all (k_eigs k) _ _ _ TK FT) as (e & l & EE). unfold get_current_error. rewrite EE. cbn [option_map]. eauto.
  - intros e r' G. pose proof (kept_error _ _ _ _ G) as ([_ KE _ _ _] & KT & _). split; [exact KT|].
    pose proof G as G0. unfold get_current_error in G. destruct (estimate_all _ _ _) as [[e1 l1]|] eqn:EE; [|discriminate]. cbn [option_map fst snd] in G. injection G as -> G. split.
    + assert (R2 : reg_run k (ops ++ [RError]) preg_new = Some r') by (rewrite reg_run_app, E; cbn [reg_run reg_step]; rewrite G0; reflexivity).
      assert (F2 : Forall reg_ok (ops ++ [RError])) by (apply Forall_app; split; auto; repeat constructor).
      pose proof (after_run k _ r' F2 R2) as AF2. destruct (af_tracked _ _ _ AF2) as [_ TK2].
      destruct (estimated_all (k_eigs k) (pr_traj r') _ _ TK2) as (e2 & l2 & E2).
      { rewrite KT. rewrite history_snoc. cbn [note snd]. pose proof (estimated_fits _ _ _ _ _ _ TK EE) as FT. unfold fits, extend in *. rewrite Forall_map. eapply Forall_impl; [|exact FT]. auto. }
      unfold get_current_error. rewrite E2. cbn [option_map]. eexists. f_equal. f_equal. cbn [fst].
      rewrite (estimate_cost _ _ _ _ _ (after_well _ _ _ AF2) E2), (estimate_cost _ _ _ _ _ (after_well _ _ _ AF) EE), KT.
      exact (proj2 (evolves_cost _ _ _ KE (after_well _ _ _ AF)) _).
    + intros X. pose proof (af_hom _ _ _ AF) as HM. apply Forall_inv_tail in HM. eapply estimated_error; eauto.
Qed.
Print Assumptions C68_error.
(** That total is unique, and points are in use as soon as they are pushed, up to
    the first evaluation. *)
Theorem C68_total_unique : forall tr h e e', total_error tr h e -> total_error tr h e' -> e = e'.
Proof. exact total_unique. Qed.
Print Assumptions C68_total_unique.
Theorem C68_points_in_use : forall ops, Forall building ops -> Forall (fun q => fst (snd q) = poses_of ops /\ used (fst (snd q)) (snd (snd q)) = all_pushed (fst (snd q)) (snd (snd q))) (planes_of ops).
Proof.
  intros ops F. pose proof (proj1 (building_history ops F)) as A. pose proof (building_fresh ops F) as B. unfold sizes, fresh in A, B. rewrite Forall_forall in *. auto.
Qed.
Print Assumptions C68_points_in_use.
Example C68_ex : enabled_all (0%nat, []) box /\ Forall building box /\ (0 < poses_of box)%nat /\ fits (poses_of box) (planes_of box) /\ length (planes_of box) = 6%nat.
Proof.
  split; [exact box_enabled|]. split; [exact box_building|]. rewrite poses_of_eq, planes_of_eq, box_history. cbn [fst snd]. split; [lia|]. split; [|reflexivity].
  unfold fits. apply Forall_map, Forall_forall. cbn. lia.
Qed.

(** ** C69 *)
Theorem C69_trajectory : forall k ops r, Forall reg_ok ops -> reg_run k ops preg_new = Some r -> (0 < poses_of ops)%nat ->
  length (pr_traj r) = poses_of ops /\ Forall hom4 (pr_traj r) /\
  ((2 <= poses_of ops)%nat -> nth_error (pr_traj r) 0 = Some m4id) /\
  (forall t, exists T, get_trajectory t r = Some T) /\ (exists T, get_last_pose r = Some T).
Proof.
  intros k ops r F E N. pose proof (after_run k ops r F E) as AF. destruct (after_length k _ r AF N) as [NP LT]. fold (poses_of ops) in NP, LT. split; [exact LT|].
  split; [pose proof (af_hom _ _ _ AF) as HM; apply Forall_inv_tail in HM; exact HM|]. split; [intros H; apply (af_first _ _ _ AF); lia|]. split.
  - intros t. unfold get_trajectory. rewrite NP. destruct (Nat.ltb_spec t (poses_of ops)); [|eauto]. destruct (nth_error (pr_traj r) t) eqn:EN; [eauto | apply nth_error_None in EN; lia].
  - unfold get_last_pose, last_pose. destruct (nth_error _ _) eqn:EN; [eauto | apply nth_error_None in EN; lia].
Qed.
Print Assumptions C69_trajectory.
(** set_last_pose places pose t at exp(t/(N-1) ln T). *)
Theorem C69_set_last_pose : forall k ops r T, Forall reg_ok ops -> reg_run k ops preg_new = Some r -> (2 <= poses_of ops)%nat -> exists r',
  set_last_pose T r = Some r' /\ length (pr_traj r') = poses_of ops /\ nth_error (pr_traj r') 0 = Some m4id /\
  (forall t, (1 <= t < poses_of ops)%nat -> nth_error (pr_traj r') t = Some (se3_of_vec (v6scal (INR t / INR (poses_of ops - 1)) (se3_ln_vee T)))) /\
  (se3_of_vec (se3_ln_vee T) = T -> get_last_pose r' = Some T).
Proof.
  intros k ops r T F E N. destruct (C69_trajectory k ops r F E ltac:(lia)) as (LT & _ & FP & _). pose proof (after_run k ops r F E) as AF. destruct (after_length k _ r AF ltac:(fold (poses_of ops); lia)) as [NP _]. fold (poses_of ops) in NP.
  destruct (set_last_pose T r) as [r'|] eqn:SL.
  2:{ unfold set_last_pose in SL. rewrite NP, LT, Nat.leb_refl in SL. destruct (_ <=? 1)%nat; discriminate. }
  exists r'. split; [reflexivity|]. pose proof (k_len _ _ _ (kept_last (k_eigs k) _ _ _ SL)) as L2. rewrite LT in L2. split; [exact L2|].
  pose proof (set_last_nth (poses_of ops) T r r') as SN. split; [rewrite (SN 0%nat) by (auto; lia); cbn; auto|].
  assert (P : forall t, (1 <= t < poses_of ops)%nat -> nth_error (pr_traj r') t = Some (se3_of_vec (v6scal (INR t / INR (poses_of ops - 1)) (se3_ln_vee T)))).
  { intros t Ht. rewrite (SN t) by (auto; lia). destruct (Nat.eqb_spec t 0); [lia|]. unfold interpolated. do 3 f_equal. field. apply not_0_INR. lia. }
  split; [exact P|]. intros ET. unfold get_last_pose, last_pose. rewrite L2, P by lia. f_equal. rewrite <- ET at 2. f_equal.
  replace (INR (poses_of ops - 1) / INR (poses_of ops - 1)) with 1 by (field; apply not_0_INR; lia). destruct (se3_ln_vee T). lin.
Qed.
Print Assumptions C69_set_last_pose.
(** Full statement, false in the code: with one pose set_last_pose does nothing. *)
Theorem C69_one_pose_refuted : exists k ops r r' T, reg_run k ops preg_new = Some r /\ poses_of ops = 1%nat /\ rigid T /\ set_last_pose T r = Some r' /\ get_last_pose r' = Some m4id /\ T <> m4id.
Proof.
  exists (mkKernels (fun _ => mkEigen4 0 v4zero) (fun _ _ _ _ => 0) (fun _ => mkSvd m3id v3zero m3id)), [RSet 0 1]. eexists. eexists. exists lifted.
  split; [reflexivity|]. split; [reflexivity|]. split; [exact rigid_lifted|]. split; [reflexivity|]. split; [reflexivity|].
  intros H. apply (f_equal (fun T => vz (mt T))) in H. cbn in H. lra.
Qed.
Print Assumptions C69_one_pose_refuted.
(** Programs that use neither INITIALIZE nor GRADIENT_ALL_POSES keep the poses on
    the constant-velocity path to the last one. *)
Theorem C69_constant_velocity : forall k ops r, Forall reg_ok ops -> Forall on_path ops -> reg_run k ops preg_new = Some r -> (0 < poses_of ops)%nat ->
  constant_velocity (poses_of ops) (pr_traj r).
Proof.
  intros k ops r F P E N. apply line_velocity; auto; [apply (C69_trajectory k ops r F E N) | eapply line_run; eauto].
Qed.
Print Assumptions C69_constant_velocity.
Theorem C69_reset : forall r t, get_trajectory t (reset_solution r) = Some m4id /\ pr_planes (reset_solution r) = pr_planes r.
Proof.
  intros r t. split; [|reflexivity]. unfold get_trajectory, reset_solution. cbn [with_prev with_traj pr_nposes pr_traj].
  destruct (Nat.ltb_spec t (pr_nposes r)); auto. apply nth_repeat_id. auto.
Qed.
Print Assumptions C69_reset.
Example C69_ex : on_path (RLast lifted) /\ se3_of_vec (se3_ln_vee lifted) = lifted.
Proof.
  assert (E : lifted = se3_of_vec (mkV6 v3zero lift)) by (unfold lifted; rewrite se3_exp_zero_rot; reflexivity).
  split; [unfold on_path|]; rewrite E, !C14_ln_of_exp_zero; reflexivity.
Qed.

(** ** C70 *)
(** Levenberg-Marquardt from a constant-velocity trajectory: the error is not
    larger afterwards, whatever the eigen and inverse routines return. *)
Theorem C70_not_worse : forall k ops r m single c r' e x e' x', Forall reg_ok ops -> Forall on_path ops -> reg_run k ops preg_new = Some r -> (0 < poses_of ops)%nat ->
  m = MODE_LM_SPHER \/ m = MODE_LM_ELLIP -> preg_solve (k_eigs k) (k_inv k) (k_svd k) m single r = Some (c, r') ->
  get_current_error (k_eigs k) r = Some (e, x) -> get_current_error (k_eigs k) r' = Some (e', x') -> e' <= e.
Proof.
  intros k ops r m s c r' e x e' x' F P E N M SO G G'. pose proof (after_run k ops r F E) as AF.
  assert (HL : lined (poses_of ops) r) by (apply (lined_after k _ r AF N); eapply line_run; eauto).
  destruct (solve_not_worse _ _ _ _ _ _ _ _ _ N HL M SO) as [[W' _] LE].
  unfold get_current_error in G, G'. destruct (estimate_all _ (pr_traj r) _) as [[e1 l1]|] eqn:E1; [|discriminate]. destruct (estimate_all _ (pr_traj r') _) as [[e2 l2]|] eqn:E2; [|discriminate].
  cbn [option_map fst snd] in G, G'. injection G as <- _. injection G' as <- _.
  rewrite (estimate_cost _ _ _ _ _ (after_well _ _ _ AF) E1), (estimate_cost _ _ _ _ _ W' E2). exact LE.
Qed.
Print Assumptions C70_not_worse.
(** From any trajectory: Gauss-Newton and Levenberg-Marquardt end on the path. *)
Theorem C70_ends_on_path : forall k ops r m single c r', Forall reg_ok ops -> reg_run k ops preg_new = Some r -> (0 < poses_of ops)%nat -> sizes (poses_of ops) (planes_of ops) ->
  m = GN_HESSIAN \/ m = MODE_LM_SPHER \/ m = MODE_LM_ELLIP -> preg_solve (k_eigs k) (k_inv k) (k_svd k) m single r = Some (c, r') -> constant_velocity (poses_of ops) (pr_traj r').
Proof.
  intros k ops r m s c r' F E N SZ M SO. pose proof (after_ready k _ r (after_run k ops r F E) N SZ) as RD.
  destruct (solve_lined _ _ _ _ _ _ _ _ _ N RD M SO) as (_ & _ & L & O). apply line_velocity; auto.
Qed.
Print Assumptions C70_ends_on_path.
(** Full statement, false in the code: the start is not on the path.  After
    INITIALIZE succeeded with error 0, each optimizer returns a trajectory with a
    larger error. *)
Theorem C70_off_path_refuted : exists ops k r0 r1 x1, Forall building ops /\ (forall Q, m4tr Q = Q -> exact4 (k_eigs k) Q) /\ (forall H, svd_of H (k_svd k H)) /\
  reg_run k ops preg_new = Some r0 /\ preg_solve (k_eigs k) (k_inv k) (k_svd k) INITIALIZE false r0 = Some (1%nat, r1) /\ get_current_error (k_eigs k) r1 = Some (0, x1) /\
  forall m, m = GN_HESSIAN \/ m = MODE_LM_SPHER \/ m = MODE_LM_ELLIP -> exists r2 x2 e2,
    preg_solve (k_eigs k) (k_inv k) (k_svd k) m false r1 = Some (0%nat, r2) /\ get_current_error (k_eigs k) r2 = Some (e2, x2) /\ 0 < e2.
Proof.
  destruct exact4_all_exists as [f X]. destruct svd_all as [g S]. set (k := mkKernels f (fun _ _ _ _ => 0) g).
  destruct (box_worse k GN_HESSIAN false false X S (or_introl eq_refl)) as (r0 & r1 & x1 & _ & _ & _ & A & B & C & _).
  exists box, k, r0, r1, x1. split; [exact box_building|]. do 5 (split; [assumption|]).
  intros m M. destruct (box_worse k m false false X S M) as (r0' & r1' & x1' & r2 & x2 & e2 & A' & B' & C' & D & E & G).
  rewrite A in A'. injection A' as <-. rewrite B in B'. injection B' as <-. exists r2, x2, e2. split; [exact D|]. split; [exact E | exact G].
Qed.
Print Assumptions C70_off_path_refuted.
Example C70_ex : Forall reg_ok box /\ Forall on_path box /\ (0 < poses_of box)%nat /\ forall k m s, m = MODE_LM_SPHER \/ m = MODE_LM_ELLIP -> exists r r' e x e' x',
  reg_run k box preg_new = Some r /\ preg_solve (k_eigs k) (k_inv k) (k_svd k) m s r = Some (0%nat, r') /\ get_current_error (k_eigs k) r = Some (e, x) /\ get_current_error (k_eigs k) r' = Some (e', x').
Proof.
  assert (OK : Forall reg_ok box). { eapply Forall_impl; [|exact box_building]. intros o; destruct o; cbn; tauto. }
  split; [exact OK|]. split; [repeat constructor|]. split; [rewrite poses_of_eq, box_history; cbn [fst]; lia|].
  intros k m s M. destruct (enabled_run k box box_enabled) as (r & E & _). pose proof (after_run k box r OK E) as AF. pose proof (proj1 (building_history box box_building)) as SZ.
  rewrite poses_of_eq, planes_of_eq in SZ. pose proof (after_ready k _ r AF) as RD. rewrite box_poses in RD, SZ. specialize (RD ltac:(lia) SZ).
  destruct (ready_error (k_eigs k) 3 r RD) as (e & x & G & _). destruct (solve_defined (k_eigs k) (k_inv k) (k_svd k) m s 3 r ltac:(lia) RD (or_intror M)) as (r' & SO & RD').
  destruct (ready_error (k_eigs k) 3 r' RD') as (e' & x' & G' & _). exists r, r', e, x, e', x'. auto.
Qed.

(** ** C71 *)
(** INITIALIZE, when every plane has a point in the first scan: it never throws.
    It returns 1 with every pose the unique least-squares alignment of the plane
    centres of that time with those of time 0, or 0 because the centres of some
    time do not determine it. *)
Theorem C71_alignment : forall k ops r s, (forall H, svd_of H (k_svd k H)) -> Forall building ops -> reg_run k ops preg_new = Some r -> (0 < poses_of ops)%nat ->
  Forall (fun q => seen 0 q = true) (planes_of ops) -> exists c r',
  preg_solve (k_eigs k) (k_inv k) (k_svd k) INITIALIZE s r = Some (c, r') /\
  ((c = 1%nat /\ forall t, (1 <= t < poses_of ops)%nat -> exists T, nth_error (pr_traj r') t = Some T /\ determined (centres_at t (planes_of ops)) (centres_first t (planes_of ops)) T) \/
   (c = 0%nat /\ exists t0, (1 <= t0 < poses_of ops)%nat /\ arun (k_svd k) (centres_at t0 (planes_of ops)) (centres_first t0 (planes_of ops)) m4id = Some (0%nat, m4id) /\
     (forall t, (1 <= t < t0)%nat -> exists T, nth_error (pr_traj r') t = Some T /\ determined (centres_at t (planes_of ops)) (centres_first t (planes_of ops)) T) /\
     (forall t, (t0 <= t)%nat -> nth_error (pr_traj r') t = nth_error (pr_traj r) t))).
Proof.
  intros k ops r s SV B E N SN. assert (OK : Forall reg_ok ops). { eapply Forall_impl; [|exact B]. intros o; destruct o; cbn; tauto. }
  destruct (initialize_spec k (history ops) s r N (after_run k ops r OK E) (proj1 (building_history ops B)) (building_fresh ops B) SN) as (c & r' & E1 & _ & _ & D).
  exists c, r'. split; [exact E1|]. fold (planes_of ops) (poses_of ops) in D.
  assert (AL : forall t, aligned (k_svd k) (planes_of ops) t (pr_traj r') -> exists T, nth_error (pr_traj r') t = Some T /\ determined (centres_at t (planes_of ops)) (centres_first t (planes_of ops)) T).
  { intros t (T & A & NT). exists T. split; auto. refine (arun_optimal _ _ _ _ _ _ A). unfold exact_svd. auto. }
  destruct D as [[-> D] | (-> & t0 & H0 & (T & A) & D1 & D2)]; [left | right]; split; auto. exists t0. split; auto. split; [rewrite A; apply arun_unchanged in A; congruence|]. auto.
Qed.
Print Assumptions C71_alignment.
(** When the scans are rigid copies of the first one, and the centres spread
    enough, it returns 1 with the true motion. *)
Theorem C71_exact : forall k ops r s P, (forall H, svd_of H (k_svd k H)) -> Forall building ops -> reg_run k ops preg_new = Some r -> (0 < poses_of ops)%nat ->
  Forall (fun q => seen 0 q = true) (planes_of ops) ->
  (forall t, (1 <= t < poses_of ops)%nat -> rigid (P t) /\
     (forall q, In q (planes_of ops) -> seen t q = true -> pushed (snd (snd q)) 0 = map (move (P t)) (pushed (snd (snd q)) t)) /\
     exists d, svd_of (gram (centred (centres_at t (planes_of ops))) (centred (centres_first t (planes_of ops)))) d /\
       vx (svd_D d) - vy (svd_D d) >= 1 / 1000000 /\ vy (svd_D d) - vz (svd_D d) >= 1 / 1000000) ->
  exists r', preg_solve (k_eigs k) (k_inv k) (k_svd k) INITIALIZE s r = Some (1%nat, r') /\ forall t, (1 <= t < poses_of ops)%nat -> nth_error (pr_traj r') t = Some (P t).
Proof.
  intros k ops r s P SV B E N SN H. destruct (C71_alignment k ops r s SV B E N SN) as (c & r' & E1 & D).
  assert (CP : forall t, (1 <= t < poses_of ops)%nat -> centres_first t (planes_of ops) = map (move (P t)) (centres_at t (planes_of ops))).
  { intros t Ht. destruct (H t Ht) as (_ & C & _). unfold centres_first, centres_at. rewrite map_map. apply map_ext_in. intros q I. apply filter_In in I. destruct I as [I S]. unfold centre. rewrite (C q I S). apply mean_move.
    unfold seen in S. intros Z. rewrite Z in S. discriminate. }
  assert (LE : forall t, length (centres_first t (planes_of ops)) = length (centres_at t (planes_of ops))) by (intros t; unfold centres_first, centres_at; rewrite !map_length; reflexivity).
  destruct D as [[-> D] | (-> & t0 & H0 & A & _)].
  - exists r'. split; auto. intros t Ht. destruct (D t Ht) as (T & NT & [[R0 _] U]). rewrite NT. f_equal. symmetry. apply U. split; [apply (H t Ht)|].
    intros T' _. rewrite (CP t Ht), error_exact. apply error_nonneg.
  - destruct (H t0 H0) as (_ & _ & d & SD & G1 & G2). destruct (arun_accepts (k_svd k) (centres_at t0 (planes_of ops)) (centres_first t0 (planes_of ops)) m4id d) as (T & A'); auto; [unfold exact_svd; auto|]. congruence.
Qed.
Print Assumptions C71_exact.
Example C71_ex : forall k s, (forall H, svd_of H (k_svd k H)) -> exists r0 r1, reg_run k box preg_new = Some r0 /\
  preg_solve (k_eigs k) (k_inv k) (k_svd k) INITIALIZE s r0 = Some (1%nat, r1) /\ pr_traj r1 = [m4id; lifted; m4id].
Proof. exact box_settled. Qed.
(** Full statement, false in the code: planes may first appear later.  If some
    plane has no point in the first scan and the last plane is seen at time 1, an
    index is out of bounds. *)
Theorem C71_late_plane_throws : forall k ops r s a b h, Forall building ops -> reg_run k ops preg_new = Some r -> (2 <= poses_of ops)%nat ->
  planes_of ops = h ++ [b] -> In a (planes_of ops) -> seen 0 a = false -> seen 1 b = true -> preg_solve (k_eigs k) (k_inv k) (k_svd k) INITIALIZE s r = None.
Proof.
  intros k ops r s a b h B E N EH I SA SB. assert (OK : Forall reg_ok ops). { eapply Forall_impl; [|exact B]. intros o; destruct o; cbn; tauto. }
  apply (initialize_unseen k (history ops) s r a b N (after_run k ops r OK E) (proj1 (building_history ops B)) (building_fresh ops B) I SA); eauto.
Qed.
Print Assumptions C71_late_plane_throws.
Example C71_late_ex : Forall building [RSet 1 2; RNew 7; RPush 7 1 lift] /\ planes_of [RSet 1 2; RNew 7; RPush 7 1 lift] = [] ++ [(7%nat, (2%nat, [Push lift 1]))].
Proof. split; [repeat constructor | reflexivity]. Qed.
(** And with other planes after it, its centre is paired with the centre of
    another plane: it returns 1 with a pose that is not the alignment of the
    planes seen both times, though the identity aligns them exactly. *)
Theorem C71_mispaired_refuted : exists k ops r0 r1 T, (forall H, svd_of H (k_svd k H)) /\ Forall building ops /\ reg_run k ops preg_new = Some r0 /\
  preg_solve (k_eigs k) (k_inv k) (k_svd k) INITIALIZE false r0 = Some (1%nat, r1) /\ nth_error (pr_traj r1) 1 = Some T /\
  let both := filter (fun q => seen 0 q && seen 1 q) (planes_of ops) in
  sq_error m4id (map (centre 1) both) (map (centre 0) both) = 0 /\ 0 < sq_error T (map (centre 1) both) (map (centre 0) both).
Proof.
  destruct svd_all as [g S]. set (k := mkKernels (fun _ => mkEigen4 0 v4zero) (fun _ _ _ _ => 0) g).
  destruct (mis_wrong k false S) as (r0 & r1 & T & A & B & C & D & E). exists k, mis, r0, r1, T. split; [exact S|]. split; [exact mis_building|]. do 3 (split; [assumption|]). cbv zeta.
  rewrite common_eq in D, E. split; [exact D|]. rewrite E. lra.
Qed.
Print Assumptions C71_mispaired_refuted.

(** ** C72 *)
(** The value returned by solve: 0 in every mode but INITIALIZE, even when the
    optimizer did not converge. *)
Theorem C72_codes : forall eigs inv jacobi m s r c r', preg_solve eigs inv jacobi m s r = Some (c, r') -> (m <> INITIALIZE -> c = 0%nat) /\ (c = 0%nat \/ c = 1%nat).
Proof.
  intros eigs inv jacobi m s r c r' H. unfold preg_solve in H. destruct (get_current_error eigs r) as [[e r0]|]; [|discriminate]. cbv zeta in H.
  assert (Z : forall o : option preg, option_map (fun r' => (0%nat, r')) o = Some (c, r') -> c = 0%nat) by (intros [x|] Q; [injection Q as <- _; auto | discriminate]).
  destruct m; try (apply Z in H; auto; fail). split; [congruence|].
  unfold solve_initialize in H. destruct (init_first _) as [[ys l]|]; [|discriminate]. revert H. generalize (seq 1 (pr_nposes (with_initial r0 e) - 1)) (with_planes (with_initial r0 e) l). clear. intros ts.
  induction ts as [|t ts IH]; intros p H; cbn [init_poses] in H; [injection H as <- _; auto|].
  destruct (init_pairs _ _ _ _); [|discriminate]. destruct (arun _ _ _ _) as [[[|n] T]|]; [injection H as <- _; auto | | discriminate]. destruct (_ <? _)%nat; [eauto | discriminate].
Qed.
Print Assumptions C72_codes.
(** GRADIENT and GN_CLAMPED_HESSIAN only evaluate the error. *)
Theorem C72_no_ops : forall eigs inv jacobi m s r c r', m = GRADIENT \/ m = GN_CLAMPED_HESSIAN -> preg_solve eigs inv jacobi m s r = Some (c, r') ->
  exists e r0, get_current_error eigs r = Some (e, r0) /\ pr_traj r' = pr_traj r /\ pr_planes r' = pr_planes r0.
Proof.
  intros eigs inv jacobi m s r c r' M H. unfold preg_solve in H. destruct (get_current_error eigs r) as [[e r0]|] eqn:E; [|discriminate]. cbv zeta in H. exists e, r0. split; auto.
  pose proof (kept_error _ _ _ _ E) as (_ & KT & _). destruct M as [-> | ->]; cbn [option_map] in H; injection H as _ <-; auto.
Qed.
Print Assumptions C72_no_ops.
(** singleIteration is only looked at in mode GRADIENT_BENGIOS_NAG. *)
Theorem C72_single_ignored : forall eigs inv jacobi m r, m <> GRADIENT_BENGIOS_NAG -> preg_solve eigs inv jacobi m true r = preg_solve eigs inv jacobi m false r.
Proof. intros eigs inv jacobi m r H. destruct m; [| |congruence| | | | |]; reflexivity. Qed.
Print Assumptions C72_single_ignored.
(** The second-order modes end without exception when all planes are made for the
    poses of the trajectory; they keep the planes, their points and the number
    and first pose of the trajectory. *)
Theorem C72_second_order : forall k ops r m s, Forall reg_ok ops -> reg_run k ops preg_new = Some r -> (0 < poses_of ops)%nat -> sizes (poses_of ops) (planes_of ops) ->
  m = GN_HESSIAN \/ m = MODE_LM_SPHER \/ m = MODE_LM_ELLIP -> exists r', preg_solve (k_eigs k) (k_inv k) (k_svd k) m s r = Some (0%nat, r').
Proof.
  intros k ops r m s F E N SZ M. destruct (solve_defined (k_eigs k) (k_inv k) (k_svd k) m s (poses_of ops) r N (after_ready k _ r (after_run k ops r F E) N SZ) M) as (r' & SO & _). eauto.
Qed.
Print Assumptions C72_second_order.
Theorem C72_keeps : forall k ops r m s c r', Forall reg_ok ops -> reg_run k ops preg_new = Some r -> preg_solve (k_eigs k) (k_inv k) (k_svd k) m s r = Some (c, r') ->
  map fst (pr_planes r') = map fst (pr_planes r) /\ fst (calculate_total_number_points r') = fst (calculate_total_number_points r) /\
  (forall t, Forall (fun q => (t < fst (snd q))%nat) (planes_of ops) -> get_point_cloud t r' = get_point_cloud t r) /\
  length (pr_traj r') = length (pr_traj r) /\ ((2 <= length (pr_traj r))%nat -> nth_error (pr_traj r') 0 = nth_error (pr_traj r) 0).
Proof.
  intros k ops r m s c r' F E SO.
  assert (R2 : reg_run k (ops ++ [RSolve m s]) preg_new = Some r') by (rewrite reg_run_app, E; cbn [reg_run reg_step]; rewrite SO; reflexivity).
  assert (F2 : Forall reg_ok (ops ++ [RSolve m s])) by (apply Forall_app; split; auto; repeat constructor).
  destruct (C68_accounting k ops r F E) as (A1 & _ & _ & A2 & A3). destruct (C68_accounting k _ r' F2 R2) as (B1 & _ & _ & B2 & B3).
  assert (PO : planes_of (ops ++ [RSolve m s]) = extend (fun _ => true) (Estimate []) (planes_of ops)) by (unfold planes_of; rewrite history_snoc; reflexivity). rewrite PO in *.
  split; [rewrite A1, B1, extend_ids; auto|]. split; [rewrite A2, B2; f_equal; unfold extend; rewrite map_map; apply map_ext; intros q; cbn [fst snd]; rewrite count_app; cbn; lia|].
  split; [|apply kept_solve in SO; destruct SO as (e & r0 & G & [_ _ K1 K2 _]); apply kept_error in G; destruct G as (_ & KT & _); rewrite K1; split; [congruence|]; intros H; rewrite K2 by congruence; congruence].
  intros t Ht. rewrite A3 by exact Ht. rewrite B3 by (unfold extend; rewrite Forall_map; exact Ht). f_equal. unfold extend. rewrite flat_map_concat_map, map_map, <- flat_map_concat_map. apply flat_map_ext. intros q. cbn [fst snd]. rewrite pushed_app. cbn. rewrite app_nil_r. reflexivity.
Qed.
Print Assumptions C72_keeps.
Example C72_ex : Forall reg_ok box /\ (0 < poses_of box)%nat /\ sizes (poses_of box) (planes_of box).
Proof. split; [apply C70_ex|]. split; [apply C70_ex | apply building_history, box_building]. Qed.
