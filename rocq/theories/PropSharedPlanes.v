(** C77: registrations filled from one CreatePoints share its planes. *)
Require Import Reals List Arith ZArith Lia Lra Bool.
From Verif Require Import Lin LinFacts SO3 SE3 SpecGeom Registration Optimizer Planes SpecPlanes PlanesEigen SpecPlaneReg PlaneRegProofs PlaneRegBox CreatePoints CreatePointsProofs CreatePointsReg PropSE3.
From Verif Require Import SharedPlanes SharedPlanesProofs SharedPlanesMore SharedPlanesWitness SharedPlanesSolve.
Import ListNotations.
Local Open Scope R_scope.

(** The registration filled last: whatever was done before and whatever is done
    to the other registrations meanwhile, it gives the answers it would give with
    planes of its own, as long as no points are pushed and nobody fills again. *)
Theorem C77_newest : forall eigs inv jacobi d p n N sc m before a0 s0 k b r evs a s, create_points d p n N = Some sc ->
  Forall pushes_none before -> Forall pushes_none evs -> Forall fills_none evs ->
  shared_run eigs inv jacobi before (shared_start sc m) = Some (a0, s0) -> nth_error (sh_regs s0) k = Some (b, r) ->
  shared_run eigs inv jacobi (EFill k :: evs) s0 = Some (a, s) ->
  (exists r', alone_run eigs inv jacobi (calls_of k evs) (create_plane_registration sc r) = Some (answers_of k a, r')) /\
  (Forall (fun e => ~ about k e) before -> r = preg_new).
Proof.
  intros eigs inv jacobi d p n N sc m before a0 s0 k b r evs a s C P0 P1 F R0 K R1. split; [exact (newest_alone eigs inv jacobi d p n N sc m before a0 s0 k b r evs a s C P0 P1 F R0 K R1)|].
  intros NA. rewrite (run_others _ _ _ _ _ _ _ _ NA R0) in K. cbn in K. apply nth_error_In, repeat_spec in K. injection K as _ ->. reflexivity.
Qed.
Print Assumptions C77_newest.
(** For one registration the answers are those of the model with copies. *)
Theorem C77_alone : forall k c r, match c with
  | CError => option_map fst (do_call (fun tr => tr) (k_eigs k) (k_inv k) (k_svd k) c r) = option_map (fun q => AReal (fst q)) (get_current_error (k_eigs k) r) /\
      option_map snd (do_call (fun tr => tr) (k_eigs k) (k_inv k) (k_svd k) c r) = reg_step k RError r
  | CSolve m s => option_map fst (do_call (fun tr => tr) (k_eigs k) (k_inv k) (k_svd k) c r) = option_map (fun q => ANat (fst q)) (preg_solve (k_eigs k) (k_inv k) (k_svd k) m s r) /\
      option_map snd (do_call (fun tr => tr) (k_eigs k) (k_inv k) (k_svd k) c r) = reg_step k (RSolve m s) r
  | CPose t => do_call (fun tr => tr) (k_eigs k) (k_inv k) (k_svd k) c r = option_map (fun T => (APose T, r)) (get_trajectory t r)
  | CLast T => option_map snd (do_call (fun tr => tr) (k_eigs k) (k_inv k) (k_svd k) c r) = reg_step k (RLast T) r
  | CReset => option_map snd (do_call (fun tr => tr) (k_eigs k) (k_inv k) (k_svd k) c r) = reg_step k RReset r
  | CCount => option_map snd (do_call (fun tr => tr) (k_eigs k) (k_inv k) (k_svd k) c r) = reg_step k RCount r
  | CPush i t x => option_map snd (do_call (fun tr => tr) (k_eigs k) (k_inv k) (k_svd k) c r) = reg_step k (RPush i t x) r
  end.
Proof.
  assert (A : forall X Y Z (f : X -> Y * Z) (o : option X), option_map fst (option_map f o) = option_map (fun q => fst (f q)) o /\ option_map snd (option_map f o) = option_map (fun q => snd (f q)) o)
    by (intros X Y Z f [x|]; auto).
  intros k c r. destruct c; cbn [do_call]; try reflexivity.
  - change (sh_current_error (fun tr => tr) (k_eigs k) r) with (get_current_error (k_eigs k) r). cbn [reg_step]. destruct (get_current_error (k_eigs k) r); auto.
  - change (sh_solve (fun tr => tr) (k_eigs k) (k_inv k) (k_svd k) mode single r) with (preg_solve (k_eigs k) (k_inv k) (k_svd k) mode single r). cbn [reg_step].
    destruct (preg_solve (k_eigs k) (k_inv k) (k_svd k) mode single r); auto.
  - cbn [reg_step]. destruct (set_last_pose T r); auto.
  - cbn [reg_step]. destruct (plane_push_back_point i t x r); auto.
Qed.
Print Assumptions C77_alone.
(** The others: get_current_error of a registration filled earlier is that of
    the registration filled last. *)
Theorem C77_older_error : forall eigs inv jacobi sc m before k evs j a s, Forall fills_none evs -> In (EFill j) before ->
  shared_run eigs inv jacobi (before ++ EFill k :: evs) (shared_start sc m) = Some (a, s) ->
  option_map fst (call_on eigs inv jacobi j CError s) = option_map fst (call_on eigs inv jacobi k CError s).
Proof.
  intros eigs inv jacobi sc m before k evs j a s F I H. destruct (last_filled _ _ _ _ _ _ _ _ _ F H) as [O (rk & K)].
  destruct (run_has_filled eigs inv jacobi j _ _ _ _ (in_or_app before (EFill k :: evs) _ (or_introl I)) H) as (rj & J).
  pose proof (error_of_owner eigs inv jacobi j s k rk rj O K J) as A. pose proof (error_of_owner eigs inv jacobi k s k rk rk O K K) as B. unfold error_of in A, B. congruence.
Qed.
Print Assumptions C77_older_error.
(** Nothing done to it changes that: not set_last_pose, not reset_solution, not
    solve. *)
Theorem C77_older_error_fixed : forall eigs inv jacobi d p n N sc m before k evs j more a s a' s', create_points d p n N = Some sc -> Forall pushes_none (before ++ evs ++ more) ->
  Forall fills_none evs -> In (EFill j) before -> Forall (fun e => fills_none e /\ ~ about k e) more ->
  shared_run eigs inv jacobi (before ++ EFill k :: evs) (shared_start sc m) = Some (a, s) -> shared_run eigs inv jacobi more s = Some (a', s') ->
  option_map fst (call_on eigs inv jacobi j CError s') = option_map fst (call_on eigs inv jacobi j CError s).
Proof.
  intros eigs inv jacobi d p n N sc m before k evs j more a s a' s' C P F I M H H'. rewrite !Forall_app in P. destruct P as (P0 & P1 & P2).
  destruct (last_filled _ _ _ _ _ _ _ _ _ F H) as [O (rk & K)]. destruct (run_has_filled eigs inv jacobi j _ _ _ _ (in_or_app before (EFill k :: evs) _ (or_introl I)) H) as (rj & J).
  destruct (untouched_ok _ _ (scene_untouched _ _ _ _ _ C)) as [_ OK].
  assert (PA : Forall pushes_none (before ++ EFill k :: evs)) by (apply Forall_app; split; auto; constructor; [exact Logic.I | auto]).
  destruct (run_base_shared eigs inv jacobi _ (shared_start sc m) a s (sc_planes sc) PA (base_list_refl _ OK) H) as (B & _). apply base_list_ok in B. destruct B as [_ B].
  destruct (run_base_shared eigs inv jacobi more s a' s' _ P2 (base_list_refl _ B) H') as (B' & _).
  assert (O' : sh_owner s' = k) by (rewrite (run_owner eigs inv jacobi more s a' s'); auto; eapply Forall_impl; [|exact M]; intros e E; apply E).
  assert (K' : nth_error (sh_regs s') k = Some (true, rk)) by (rewrite (run_others eigs inv jacobi k more s a' s'); auto; eapply Forall_impl; [|exact M]; intros e E; apply E).
  destruct (run_filled eigs inv jacobi j more s a' s' rj J H') as (rj' & J').
  pose proof (error_of_owner eigs inv jacobi j s k rk rj O K J) as E1. pose proof (error_of_owner eigs inv jacobi j s' k rk rj' O' K' J') as E2. unfold error_of in E1, E2. rewrite E1, E2.
  pose proof (estimate_base eigs (pr_traj rk) _ _ B') as V. destruct (estimate_all eigs (pr_traj rk) (sc_planes (sh_scene s))) as [[e l]|], (estimate_all eigs (pr_traj rk) (sc_planes (sh_scene s'))) as [[e' l']|]; cbn in V |- *; congruence.
Qed.
Print Assumptions C77_older_error_fixed.
(** Its optimizers stop after one iteration, whatever its poses are. *)
Theorem C77_older_one_iteration : forall eigs inv jacobi d p n N sc m before k evs j a s mode single x s', create_points d p n N = Some sc -> Forall pushes_none (before ++ evs) ->
  Forall fills_none evs -> In (EFill j) before -> j <> k ->
  shared_run eigs inv jacobi (before ++ EFill k :: evs) (shared_start sc m) = Some (a, s) ->
  mode = GN_HESSIAN \/ mode = MODE_LM_SPHER \/ mode = MODE_LM_ELLIP -> call_on eigs inv jacobi j (CSolve mode single) s = Some (x, s') ->
  exists r, nth_error (sh_regs s') j = Some (true, r) /\ pr_iters r = 1%nat.
Proof.
  intros eigs inv jacobi d p n N sc m before k evs j a s mode single x s' C P F I NE H M H'. apply Forall_app in P. destruct P as (P0 & P1).
  destruct (last_filled _ _ _ _ _ _ _ _ _ F H) as [O (rk & K)]. destruct (run_has_filled eigs inv jacobi j _ _ _ _ (in_or_app before (EFill k :: evs) _ (or_introl I)) H) as (rj & J).
  destruct (untouched_ok _ _ (scene_untouched _ _ _ _ _ C)) as [_ OK].
  assert (PA : Forall pushes_none (before ++ EFill k :: evs)) by (apply Forall_app; split; auto; constructor; [exact Logic.I | auto]).
  destruct (run_base_shared eigs inv jacobi _ (shared_start sc m) a s (sc_planes sc) PA (base_list_refl _ OK) H) as (B & _). apply base_list_ok in B. destruct B as [_ B].
  unfold call_on in H'. rewrite J in H'. cbn [do_call] in H'. destruct (sh_solve (points_to s j) eigs inv jacobi mode single _) as [[c r]|] eqn:E; [|discriminate]. injection H' as _ <-. cbn [sh_regs snd].
  exists r. split; [eapply set_at_nth; eauto|].
  assert (PT : points_to s j = fun _ => pr_traj rk). { unfold points_to. rewrite O. destruct (Nat.eqb_spec j k); [contradiction|]. rewrite K. reflexivity. }
  rewrite PT in E. unfold sh_solve in E. destruct (sh_current_error _ eigs (with_planes rj (sc_planes (sh_scene s)))) as [[e r0]|] eqn:E0; [|discriminate]. cbv zeta in E.
  assert (B0 : Forall (fun q => okS (snd q)) (pr_planes (with_initial r0 e))).
  { apply ev_error in E0. unfold ev in E0. cbn [with_planes pr_planes] in E0. apply (base_evolves eigs _ _ _ (base_list_refl _ B)) in E0. apply base_list_ok in E0. apply E0. }
  destruct M as [-> | [-> | ->]]; (destruct (sh_run_optimizer _ _ _ _ _ _) as [r2|] eqn:E2; [|discriminate]); cbn [option_map] in E; injection E as _ <-; eapply stale_optimizer; eauto.
Qed.
Print Assumptions C77_older_one_iteration.
(** Full statement, false in the code: filling another registration changes what
    this one reports, although its own trajectory is untouched.  Alone it has the
    true trajectory and error 0; after the other was filled its error is
    positive. *)
Theorem C77_independent_refuted : exists d s T r, create_points d 3 1 2 = Some s /\ exists k, (forall Q, m4tr Q = Q -> exact4 (k_eigs k) Q) /\
  alone_run (k_eigs k) (k_inv k) (k_svd k) [CLast T; CError] (create_plane_registration s preg_new) = Some ([ANone; AReal 0], r) /\ exists e s' r',
  shared_run (k_eigs k) (k_inv k) (k_svd k) [EFill 0; ECall 0 (CLast T); EFill 1; ECall 0 CError] (shared_start s 2) = Some ([(0%nat, ANone); (0%nat, AReal e)], s') /\
  nth_error (sh_regs s') 0 = Some (true, r') /\ pr_traj r' = sc_truth s /\ pr_traj r = sc_truth s /\ 0 < e.
Proof.
  destruct exact4_all_exists as [f X]. set (k := mkKernels f (fun _ _ _ _ => 0) (fun _ => mkSvd m3id v3zero m3id)). destruct (hop_positive k X) as (s & e & x & E & EF & G & PE).
  destruct (registration_zero k [] preg_new hop 3 1 2 X (Forall_nil _) eq_refl ltac:(lia) ltac:(lia) ltac:(lia)) as (s' & r & r' & E' & SL & TR & GE).
  { left. cbn [d_final hop]. rewrite C14_ln_of_exp_zero. reflexivity. }
  { intros t i. cbn [d_point hop]. destruct i as [|[|]]; reflexivity. }
  rewrite E in E'. injection E' as <-. rewrite EF in SL. destruct (untouched_ok _ _ (scene_untouched _ _ _ _ _ E)) as [ND OK].
  exists hop, s, lifted, r'. split; auto. exists k. split; auto. split.
  { cbn [alone_run do_call]. rewrite SL. cbn [option_map]. change (sh_current_error (fun tr => tr) (k_eigs k) r) with (get_current_error (k_eigs k) r). rewrite GE. reflexivity. }
  assert (PR : pr_planes (create_plane_registration s preg_new) = reset_all (sc_planes s)) by (rewrite create_reg by auto; reflexivity).
  assert (PRr : pr_planes r = reset_all (sc_planes s)).
  { rewrite <- PR. unfold set_last_pose in SL. destruct (_ <=? _)%nat; [injection SL as <-; reflexivity|]. destruct (_ <=? _)%nat; [injection SL as <-; reflexivity | discriminate]. }
  cbn [shared_run event_step]. unfold fill_reg at 1. cbn [shared_start sh_regs repeat nth_error option_map]. unfold call_on at 1. cbn [sh_regs set_at nth_error do_call sh_scene put_planes sc_planes].
  change (sh_scene (shared_start s 2)) with s. fold (reset_all (sc_planes s)). replace (with_planes (create_plane_registration s preg_new) (reset_all (sc_planes s))) with (create_plane_registration s preg_new) by (rewrite <- PR; destruct (create_plane_registration s preg_new); reflexivity).
  rewrite SL. cbn [option_map fst snd sh_owner sh_scene sh_regs set_at]. unfold fill_reg. cbn [sh_regs nth_error option_map sh_scene sc_planes put_planes set_at]. rewrite PRr.
  set (s1 := mkShared _ 1 _). set (r1 := create_plane_registration _ preg_new) in s1.
  assert (T1 : pr_traj r1 = pr_traj (create_plane_registration s preg_new)).
  { unfold r1. rewrite !create_reg; auto. cbn [put_planes sc_planes]. unfold reset_all. rewrite map_map. cbn [fst]. exact ND. }
  assert (BS : baseL (pr_planes (create_plane_registration s preg_new)) (sc_planes (sh_scene s1))).
  { rewrite PR. cbn [s1 sh_scene put_planes sc_planes]. apply base_reset_self. apply Forall_map, Forall_forall. intros q _. left. reflexivity. }
  pose proof (error_of_owner (k_eigs k) (k_inv k) (k_svd k) 0 s1 1 r1 r eq_refl eq_refl eq_refl) as ER. unfold error_of in ER.
  unfold get_current_error in G. pose proof (estimate_base (k_eigs k) (pr_traj (create_plane_registration s preg_new)) _ _ BS) as V. rewrite T1 in ER.
  destruct (estimate_all (k_eigs k) _ (pr_planes (create_plane_registration s preg_new))) as [[e1 l1]|]; [|discriminate]. cbn [option_map fst] in G, V. injection G as -> _.
  destruct (estimate_all (k_eigs k) _ (sc_planes (sh_scene s1))) as [[e2 l2]|]; [|discriminate]. cbn [option_map fst] in V, ER. injection V as <-.
  destruct (call_on (k_eigs k) (k_inv k) (k_svd k) 0 CError s1) as [[w s2]|] eqn:CO; [|discriminate]. cbn [option_map fst] in ER. injection ER as ->. cbn [option_map fst snd app].
  assert (R2 : exists r2, nth_error (sh_regs s2) 0 = Some (true, r2) /\ pr_traj r2 = sc_truth s).
  { unfold call_on in CO. cbn [s1 sh_regs nth_error] in CO. destruct (do_call _ _ _ _ _ _) as [[y r2]|] eqn:D; [|discriminate]. cbn [option_map] in CO. injection CO as _ <-. cbn [sh_regs nth_error set_at]. exists r2. split; auto.
    cbn [do_call] in D. unfold sh_current_error in D. destruct (estimate_all _ _ _) as [[? ?]|]; [|discriminate]. cbn in D. injection D as _ <-. exact TR. }
  destruct R2 as (r2 & R2 & T2). exists e, s2, r2. split; [reflexivity|]. split; [exact R2|]. split; [exact T2|]. split; [|exact PE].
  unfold get_current_error in GE. destruct (estimate_all _ _ _) as [[? ?]|]; [|discriminate]. cbn in GE. injection GE as _ <-. exact TR.
Qed.
Print Assumptions C77_independent_refuted.

(** A run that meets the hypotheses of C77_newest and C77_older_error: the older
    registration is asked, with an answer other than its own. *)
Example C77_run_ex : exists d sc eigs inv jacobi T e s, create_points d 3 1 2 = Some sc /\ 0 < e /\
  shared_run eigs inv jacobi ([EFill 0; ECall 0 (CLast T)] ++ EFill 1 :: [ECall 0 CError]) (shared_start sc 2) = Some ([(0%nat, ANone); (0%nat, AReal e)], s) /\
  Forall pushes_none [EFill 0; ECall 0 (CLast T)] /\ Forall pushes_none [ECall 0 CError] /\ Forall fills_none [ECall 0 CError] /\ In (EFill 0) [EFill 0; ECall 0 (CLast T)] /\
  Forall (fun x => fills_none x /\ ~ about 1 x) [ECall 0 CError] /\ ~ Forall (fun x => ~ about 0 x) [ECall 0 CError].
Proof.
  destruct C77_independent_refuted as (d & sc & T & r & C & k & _ & _ & e & s & r' & R & _ & _ & _ & P). exists d, sc, (k_eigs k), (k_inv k), (k_svd k), T, e, s.
  split; auto. split; auto. split; [exact R|]. split; [repeat constructor|]. split; [repeat constructor|]. split; [repeat constructor|]. split; [left; reflexivity|].
  split; [repeat constructor; cbn; discriminate|]. intros F. inversion F as [|? ? A]; subst. apply A. reflexivity.
Qed.
(** and one that meets those of C77_older_one_iteration, for every optimizer mode
    and every scene with a pose *)
Example C77_solve_ex : forall eigs inv jacobi m, m = GN_HESSIAN \/ m = MODE_LM_SPHER \/ m = MODE_LM_ELLIP -> exists d sc s2 s3, create_points d 3 1 2 = Some sc /\
  shared_run eigs inv jacobi ([EFill 0] ++ EFill 1 :: []) (shared_start sc 2) = Some ([], s2) /\ call_on eigs inv jacobi 0 (CSolve m false) s2 = Some (ANat 0, s3).
Proof.
  intros eigs inv jacobi m M. destruct C77_independent_refuted as (d & sc & _ & _ & C & _). exists d, sc.
  destruct (two_filled eigs inv jacobi d 3 1 2 sc m false C ltac:(lia) M) as (s2 & s3 & A & B). exists s2, s3. auto.
Qed.
Example C77_alone_ex : let k := mkKernels (fun _ => mkEigen4 0 (mkV4 v3zero 0)) (fun _ _ _ _ => 0) (fun _ => mkSvd m3id v3zero m3id) in
  do_call (fun tr => tr) (k_eigs k) (k_inv k) (k_svd k) (CPose 1) (set_number_planes_and_poses 1 2 preg_new) = Some (APose m4id, set_number_planes_and_poses 1 2 preg_new).
Proof. reflexivity. Qed.
