(** A registration whose planes point elsewhere: solve() does not fail. *)
Require Import Reals List Arith ZArith Lia Lra Psatz Bool.
From Verif Require Import Lin LinFacts SO3 SE3 SpecGeom SE3Alg SE3Exp Sums Registration SpecRegistration Optimizer OptimizerProofs Planes SpecPlanes PlanesProofs PlanesMore SpecPlaneReg PlaneRegProofs PlaneRegMore PlaneRegSolve.
From Verif Require Import CreatePoints CreatePointsProofs CreatePointsReg SharedPlanes SharedPlanesProofs SharedPlanesMore.
Import ListNotations.
Local Open Scope R_scope.

Lemma stale_error tr eigs n r : length tr = n -> ready n r ->
  exists e r', sh_current_error (fun _ => tr) eigs r = Some (e, r') /\ ready n r' /\ Forall (fun q => measured n (snd q)) (pr_planes r') /\ pr_traj r' = pr_traj r.
Proof.
  intros L (A & B & C). destruct (sized_estimate eigs n tr _ A L) as (e & l & E & S & M). unfold sh_current_error. rewrite E. cbn. do 2 eexists. split; [reflexivity|]. split; [|auto]. split; auto.
Qed.
Lemma stale_total tr eigs n : length tr = n -> (0 < n)%nat -> total (sh_problem (fun _ => tr) eigs) (ready n).
Proof.
  intros L N. constructor; cbn.
  - intros r R. destruct (stale_error tr eigs n r L R) as (e & r' & E & R' & _). unfold sh_calculate_error. rewrite E. cbn. eauto.
  - intros r R. destruct (stale_error tr eigs n r L R) as (e & r1 & E & R1 & M & _). unfold sh_gradient_hessian. rewrite E. destruct R as (_ & B & _). rewrite B.
    destruct (gh_poses_defined n n (seq 1 (n - 1)) (pr_planes r1)) as (g & h & l & G); auto; [intros t I; apply in_seq in I; lia|]. rewrite G. do 4 eexists. split; [reflexivity|].
    assert (R2 : ready n (with_planes r1 l)) by (eapply ready_kept; [exact R1|]; apply kept_planes; eapply (gh_poses_evolves eigs); exact G).
    split; auto. intros dx. destruct (ready_move n (v6_of dx) _ N R2) as (r' & E' & R' & _). eauto.
  - intros r R. eapply ready_kept; [exact R | apply (kept_book eigs)].
  - intros r (A & B & C). unfold sh_restore. rewrite B, middle_path by auto. assert (R1 : ready n (with_traj r (path n (pr_book r) (pr_traj r)))).
    { split; [exact A|]. split; [exact B|]. cbn. rewrite path_length. auto. }
    destruct (stale_error tr eigs n _ L R1) as (e & r' & E & R' & _). rewrite E. exact R'.
Qed.
Lemma stale_solve tr eigs inv jacobi m s n r : length tr = n -> (0 < n)%nat -> ready n r -> m = GN_HESSIAN \/ m = MODE_LM_SPHER \/ m = MODE_LM_ELLIP ->
  exists r', sh_solve (fun _ => tr) eigs inv jacobi m s r = Some (0%nat, r').
Proof.
  intros L N R M. unfold sh_solve. destruct (stale_error tr eigs n r L R) as (e & r1 & E & R1 & _ & _). rewrite E. cbv zeta.
  assert (RO : forall om, exists r', sh_run_optimizer (fun _ => tr) eigs inv om 100 (with_initial r1 e) = Some r').
  { intros om. unfold sh_run_optimizer. destruct (lm_solve_total (sh_problem (fun _ => tr) eigs) (ready n) inv om 100 (1 / 100) (opt_new (with_initial r1 e) (1 / 10000) (1 / 100000)) (stale_total tr eigs n L N) R1) as (o & k & E2 & R2).
    rewrite E2. cbn [option_map]. eexists. reflexivity. }
  destruct M as [-> | [-> | ->]]; [destruct (RO NEWTON_RAPHSON) as (r2 & E2) | destruct (RO LM_SPHER) as (r2 & E2) | destruct (RO LM_ELLIP) as (r2 & E2)]; rewrite E2; cbn [option_map]; eauto.
Qed.

(** ** The planes of a scene have one slot per pose *)
Lemma sized_set m k id p l : sized m l -> (exists pts, shape m pts p) -> sized m (set_at k (id, p) l).
Proof. intros A B. apply set_at_forall; auto. Qed.
Lemma make_points_sized d p n PP T t is m : forall xs ids l st, sized m l -> make_points d p n PP T t is (xs, ids, l) = Some st -> sized m (snd st).
Proof.
  induction is as [|i is IH]; intros xs ids l st U H; cbn [make_points] in H; [injection H as <-; exact U|].
  destruct (make_point d p n PP T t i (xs, ids, l)) as [[[xs1 ids1] l1]|] eqn:E; [|discriminate]. apply IH in H; auto. unfold make_point in E.
  destruct (plane_index i n p) as [k|]; [|discriminate]. destruct (nth_error PP k); [|discriminate]. destruct (nth_error l k) as [[id pl]|] eqn:E1; [|discriminate].
  destruct (push_back_point _ t pl) as [pl'|] eqn:E2; [|discriminate]. injection E as _ _ <-. apply sized_set; auto.
  unfold sized in U. rewrite Forall_forall in U. destruct (U _ (nth_error_In _ _ E1)) as (pts & SH). cbn [snd] in SH.
  destruct (Nat.lt_ge_cases t m) as [LT|GE].
  - match type of E2 with push_back_point ?x _ _ = _ => destruct (shape_push m pts pl x t SH LT) as (q & _ & p2 & E3 & SH2 & _) end. rewrite E2 in E3. injection E3 as <-. eauto.
  - rewrite (push_out m pts) in E2 by auto. injection E2 as <-. eauto.
Qed.
Lemma make_scans_sized d p n PP truth ts m : forall X ids l st, sized m l -> make_scans d p n PP truth ts (X, ids, l) = Some st -> sized m (snd st).
Proof.
  induction ts as [|t ts IH]; intros X ids l st U H; cbn [make_scans] in H; [injection H as <-; exact U|].
  destruct (nth_error truth t) as [T|]; [|discriminate]. destruct (make_points d p n PP T t (seq 0 p) ([], [], l)) as [[[xs ks] l1]|] eqn:E; [|discriminate].
  apply (make_points_sized _ _ _ _ _ _ _ m) in E; auto. eapply IH; [|exact H]. exact E.
Qed.
Lemma scene_sized d p n N s : create_points d p n N = Some s -> sized N (sc_planes s) /\ sc_nposes s = N.
Proof.
  unfold create_points. cbv zeta. destruct (make_scans _ _ _ _ _ _ _) as [[[X ids] l]|] eqn:E; [|discriminate]. intros H. injection H as <-. cbn [sc_planes sc_nposes]. split; auto.
  apply (make_scans_sized _ _ _ _ _ _ N) in E; auto. apply Forall_map, Forall_forall. intros x _. cbn [snd]. exists (repeat [] N). apply shape_new.
Qed.
Lemma sized_reset m l : sized m l -> sized m (reset_all l).
Proof. intros H. apply Forall_map. eapply Forall_impl; [|exact H]. intros q (pts & [A B C D]). cbn [snd]. exists pts. constructor; cbn; auto. Qed.
Lemma filled_ready d p n N s r l : create_points d p n N = Some s -> sized N l -> ready N (with_planes (create_plane_registration s r) l) /\ length (pr_traj (create_plane_registration s r)) = N.
Proof.
  intros C L. destruct (scene_sized _ _ _ _ _ C) as [_ EN]. rewrite create_reg by (apply (untouched_ok n), (scene_untouched _ _ _ _ _ C)). unfold ready. cbn. rewrite EN, repeat_length. auto.
Qed.
(** two registrations filled, then the first one solved *)
Lemma two_filled eigs inv jacobi d p n N sc m s : create_points d p n N = Some sc -> (0 < N)%nat -> m = GN_HESSIAN \/ m = MODE_LM_SPHER \/ m = MODE_LM_ELLIP ->
  exists s2 s3, shared_run eigs inv jacobi [EFill 0; EFill 1] (shared_start sc 2) = Some ([], s2) /\ call_on eigs inv jacobi 0 (CSolve m s) s2 = Some (ANat 0, s3).
Proof.
  intros C N0 M. destruct (scene_sized _ _ _ _ _ C) as [SZ EN]. pose proof (untouched_ok _ _ (scene_untouched _ _ _ _ _ C)) as [ND _].
  set (r1 := create_plane_registration (put_planes sc (reset_all (sc_planes sc))) preg_new).
  set (s2 := mkShared (put_planes (put_planes sc (reset_all (sc_planes sc))) (reset_all (reset_all (sc_planes sc)))) 1 [(true, create_plane_registration sc preg_new); (true, r1)]).
  assert (RUN : shared_run eigs inv jacobi [EFill 0; EFill 1] (shared_start sc 2) = Some ([], s2)) by reflexivity. exists s2.
  unfold call_on. cbn [s2 sh_regs nth_error sh_scene put_planes sc_planes do_call]. fold s2.
  assert (PT : points_to s2 0 = fun _ => pr_traj r1) by reflexivity. rewrite PT.
  assert (L1 : length (pr_traj r1) = N).
  { unfold r1. rewrite create_reg; [cbn; rewrite EN, repeat_length; reflexivity|]. cbn [put_planes sc_planes]. unfold reset_all. rewrite map_map. cbn [fst]. exact ND. }
  destruct (filled_ready d p n N sc preg_new (reset_all (reset_all (sc_planes sc))) C) as [RD _]; [apply sized_reset, sized_reset, SZ|].
  destruct (stale_solve (pr_traj r1) eigs inv jacobi m s N _ L1 N0 RD M) as (r' & E). rewrite E. cbn [option_map fst snd]. eexists. split; [exact RUN | reflexivity].
Qed.
