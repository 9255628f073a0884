(** C78: what print_evaluate reports about a plane registration. *)
Require Import Reals List Arith Lia Lra Psatz Bool.
From Verif Require Import Lin LinFacts SO3 SE3 SpecGeom SE3Alg Factors3DLn Sums Registration SpecRegistration RegistrationProofs ArunProofs RegistrationMore Optimizer OptimizerProofs Planes SpecPlanes PlanesProofs PlanesEigen PlanesMore SpecPlaneReg PlaneRegProofs PlaneRegMore PlaneRegSolve PlaneRegInit PlaneRegBox.
From Verif Require Import Evaluate EvaluateProofs PropPlaneReg.
Import ListNotations.
Local Open Scope R_scope.

(** The report is defined exactly when every plane fits the trajectory, no more
    planes were added than declared, and the last mode is neither INITIALIZE nor
    GN_CLAMPED_HESSIAN unless a report was made before. *)
Theorem C78_defined : forall k eigs6 ops e time, Forall eval_ok ops -> eval_run k eigs6 ops ereg_new = Some e -> (0 < poses_of (erase ops))%nat ->
  ((exists l e', print_evaluate (k_eigs k) eigs6 time e = Some (l, e')) <->
   fits (poses_of (erase ops)) (planes_of (erase ops)) /\ (length (planes_of (erase ops)) <= declared ops)%nat /\
   (last_mode ops = INITIALIZE \/ last_mode ops = GN_CLAMPED_HESSIAN -> evaluated ops = true)).
Proof.
  intros k e6 ops e t F E N. pose proof (run_facts _ _ _ _ E) as FA. pose proof (shown_iff _ _ _ FA) as SH. destruct FA as [RU DE _ _ _].
  pose proof (erase_ok _ F) as FO. set (r1 := snd (calculate_total_number_points (e_reg e))).
  assert (R1 : reg_run k (erase ops ++ [RCount]) preg_new = Some r1) by (rewrite reg_run_app, RU; reflexivity).
  assert (F1 : Forall reg_ok (erase ops ++ [RCount])) by (apply Forall_app; split; auto; repeat constructor).
  pose proof (total_known _ _ _ FO RU) as [_ LP].
  assert (HH : poses_of (erase ops ++ [RCount]) = poses_of (erase ops) /\ planes_of (erase ops ++ [RCount]) = planes_of (erase ops)) by (unfold poses_of, planes_of; rewrite count_history; auto).
  destruct HH as [HP HL]. assert (N1 : (0 < poses_of (erase ops ++ [RCount]))%nat) by (rewrite HP; exact N).
  destruct (C68_error k _ r1 F1 R1 N1) as [D _]. rewrite HP, HL in D. split.
  - intros (l & e' & P). apply print_shape in P. destruct P as (err & r2 & H & G & S & L & _ & _). fold r1 in G. split; [apply D; eauto|]. split.
    + rewrite (error_planes _ _ _ _ G) in L. apply fr_error in G. destruct G as (G & _). rewrite G in L. cbn in L. rewrite LP, DE in L. exact L.
    + intros M. destruct (evaluated ops) eqn:EV; auto. rewrite (proj2 SH) in S by auto. discriminate.
  - intros (A & B & C). apply D in A. destruct A as (err & r2 & G). unfold print_evaluate. cbv zeta. fold r1. rewrite G.
    pose proof (error_planes _ _ _ _ G) as L2. pose proof (fr_error _ _ _ _ G) as (G2 & _).
    replace (length (pr_planes r2) <=? pr_nplanes r2)%nat with true; [|symmetry; apply Nat.leb_le; rewrite L2, G2; cbn; rewrite LP, DE; exact B].
    destruct (hessian_shown e); [cbn; eauto|]. destruct (proj1 SH eq_refl) as [M EV]. rewrite C in EV by auto. discriminate.
Qed.
Print Assumptions C78_defined.

(** Entries 0, 1, 2, 4 and 6: the declared number of planes, the number of poses,
    the number of points accepted, the time, and the error of the current poses.
    Reporting moves no pose, and a second report is the same list. *)
Theorem C78_report : forall k eigs6 ops e time l e', Forall eval_ok ops -> eval_run k eigs6 ops ereg_new = Some e -> (0 < poses_of (erase ops))%nat ->
  print_evaluate (k_eigs k) eigs6 time e = Some (l, e') ->
  length l = 13%nat /\ nth 0 l 0 = INR (declared ops) /\ nth 1 l 0 = INR (poses_of (erase ops)) /\
  nth 2 l 0 = INR (list_sum (map (fun q => count_pushed (fst (snd q)) (snd (snd q))) (planes_of (erase ops)))) /\ nth 4 l 0 = time /\
  ((forall Q, m4tr Q = Q -> exact4 (k_eigs k) Q) -> total_error (pr_traj (e_reg e)) (planes_of (erase ops)) (nth 6 l 0)) /\
  pr_traj (e_reg e') = pr_traj (e_reg e) /\ (exists e'', print_evaluate (k_eigs k) eigs6 time e' = Some (l, e'')).
Proof.
  intros k e6 ops e t l e' F E N P. pose proof (run_facts _ _ _ _ E) as FA. destruct FA as [RU DE _ _ _].
  pose proof (erase_ok _ F) as FO. set (r1 := snd (calculate_total_number_points (e_reg e))).
  assert (R1 : reg_run k (erase ops ++ [RCount]) preg_new = Some r1) by (rewrite reg_run_app, RU; reflexivity).
  assert (F1 : Forall reg_ok (erase ops ++ [RCount])) by (apply Forall_app; split; auto; repeat constructor).
  assert (HH : poses_of (erase ops ++ [RCount]) = poses_of (erase ops) /\ planes_of (erase ops ++ [RCount]) = planes_of (erase ops)) by (unfold poses_of, planes_of; rewrite count_history; auto).
  destruct HH as [HP HL]. assert (N1 : (0 < poses_of (erase ops ++ [RCount]))%nat) by (rewrite HP; exact N).
  destruct (C68_error k _ r1 F1 R1 N1) as [_ D]. rewrite HL in D.
  pose proof (total_known _ _ _ FO RU) as [TP LP]. destruct (after_length k _ _ (after_run k _ _ FO RU) N) as [NP _]. fold (poses_of (erase ops)) in NP.
  pose proof P as P0. apply print_shape in P. destruct P as (err & r2 & H & G & S & L & -> & ->). fold r1 in G. destruct (D err r2 G) as (TR & (r3 & G3) & TE).
  split; [reflexivity|]. split; [cbn; f_equal; exact DE|]. split; [cbn [nth app]; f_equal; exact NP|]. split; [cbn [nth app]; f_equal; exact TP|]. split; [reflexivity|]. split; [exact TE|]. split; [exact TR|].
  eapply report_twice; [|exact P0]. intros x r' Hx. eapply D. exact Hx.
Qed.
Print Assumptions C78_report.

(** After a solve, as long as no other solve was made: entry 5 is the error of
    the poses that solve started from, and entry 3 its number of iterations.  In
    the modes that do not iterate entry 3 is what it was before that solve. *)
Theorem C78_last_solve : forall k eigs6 a m single b q e time l e', Forall eval_ok a -> eval_run k eigs6 a ereg_new = Some q -> (0 < poses_of (erase a))%nat ->
  Forall unsolved b -> eval_run k eigs6 (EOp (RSolve m single) :: b) q = Some e -> print_evaluate (k_eigs k) eigs6 time e = Some (l, e') ->
  ((forall Q, m4tr Q = Q -> exact4 (k_eigs k) Q) -> total_error (pr_traj (e_reg q)) (planes_of (erase a)) (nth 5 l 0)) /\
  exists n, nth 3 l 0 = INR n /\
  match m with
  | GN_HESSIAN | MODE_LM_SPHER | MODE_LM_ELLIP => (1 <= n <= 100)%nat
  | GRADIENT_BENGIOS_NAG => (1 <= n <= 100 * 100)%nat /\ (single = true -> n = 1%nat)
  | GRADIENT_ALL_POSES => (1 <= n <= 100 * 100)%nat
  | INITIALIZE | GRADIENT | GN_CLAMPED_HESSIAN => forall time' l' q', print_evaluate (k_eigs k) eigs6 time' q = Some (l', q') -> nth 3 l' 0 = INR n
  end.
Proof.
  intros k e6 a m s b q e t l e' F E N U E2 P. cbn [eval_run eval_step reg_step] in E2. destruct (preg_solve _ _ _ _ _ _) as [[c r1]|] eqn:PS; [|discriminate]. cbn [option_map snd] in E2.
  apply run_unsolved in E2; auto. cbn [e_reg] in E2. destruct E2 as (EI & EK & _). apply print_shape in P. destruct P as (err & r2 & H & _ & _ & _ & -> & _). cbn [nth app].
  pose proof (run_facts _ _ _ _ E) as [RU _ _ _ _]. pose proof (solve_members _ _ _ _ _ _ _ _ PS) as (e0 & r0 & G & _ & I0 & _). split.
  - intros X. rewrite EI, I0. destruct (C68_error k _ _ (erase_ok _ F) RU N) as [_ D]. destruct (D _ _ G) as (_ & _ & TE). auto.
  - exists (pr_iters r1). rewrite EK. split; [reflexivity|]. pose proof (solve_iterations _ _ _ _ _ _ _ _ PS) as SI. destruct m; auto; intros t' l' q' P'; apply print_shape in P'; destruct P' as (? & ? & ? & _ & _ & _ & -> & _); cbn [nth app]; rewrite SI; reflexivity.
Qed.
Print Assumptions C78_last_solve.
(** Without a solve both are zero. *)
Theorem C78_never_solved : forall k eigs6 ops e time l e', Forall unsolved ops -> eval_run k eigs6 ops ereg_new = Some e -> print_evaluate (k_eigs k) eigs6 time e = Some (l, e') ->
  nth 3 l 0 = 0 /\ nth 5 l 0 = 0.
Proof.
  intros k e6 ops e t l e' U E P. apply run_unsolved in E; auto. destruct E as (A & B & _). apply print_shape in P. destruct P as (? & ? & ? & _ & _ & _ & -> & _). cbn [nth app]. rewrite A, B. auto.
Qed.
Print Assumptions C78_never_solved.

(** Entries 7 to 12 after Gauss-Newton or Levenberg-Marquardt: the eigenvalues of
    the matrix M of the last iteration of that solve.  M is the Hessian H at a
    state of the same planes and points; Levenberg-Marquardt has added its
    damping, so the smallest eigenvalue of H is smaller than the one reported. *)
Theorem C78_eigenvalues : forall k eigs6 a m single b q e time l e' om, eval_run k eigs6 a ereg_new = Some q ->
  Forall unsolved b -> eval_run k eigs6 (EOp (RSolve m single) :: b) q = Some e -> print_evaluate (k_eigs k) eigs6 time e = Some (l, e') ->
  optimizer_of m = Some om -> exists x x1 n g H M,
    same_points (e_reg q) x /\ length (pr_traj x) = length (pr_traj (e_reg q)) /\ pr_gradient_hessian (k_eigs k) x = Some (x1, (n, g, H)) /\
    symmetric6 M /\ skipn 7 l = map (eigs6 M) (seq 0 6) /\
    match om with
    | NEWTON_RAPHSON => M = H
    | LM_SPHER => exists lambda, 0 < lambda /\ (forall i j, M i j = if Nat.eqb i j then H i j + lambda else H i j) /\
        (smallest6 M (nth 7 l 0) -> smallest6 H (nth 7 l 0 - lambda) /\ ~ smallest6 H (nth 7 l 0))
    | LM_ELLIP => exists lambda, 0 < lambda /\ (forall i j, M i j = if Nat.eqb i j then H i j * (1 + lambda) else H i j)
    end.
Proof.
  intros k e6 a m s b q e t l e' om E U E2 P OM. cbn [eval_run eval_step reg_step] in E2. destruct (preg_solve _ _ _ _ _ _) as [[c r1]|] eqn:PS; [|discriminate]. cbn [option_map snd] in E2.
  apply run_unsolved in E2; auto. cbn [e_reg e_mode e_hess] in E2. destruct E2 as (_ & _ & EM & EH). apply print_shape in P. destruct P as (err & r2 & M & _ & S & _ & -> & _).
  pose proof (solve_members _ _ _ _ _ _ _ _ PS) as (e0 & r0 & G & _ & _ & O). rewrite OM in O. destruct O as (o & kk & O & _).
  assert (EMo : M = o_hess o).
  { unfold hessian_shown in S. rewrite EM, EH in S. unfold hessian_left in S. rewrite OM, G, O in S. destruct m; cbn in OM; try discriminate; congruence. }
  apply plane_left in O. destruct O as (x & x1 & n & g & H & la & K & GH & EL & LA). cbn [calculate_gradient_hessian plane_problem] in GH.
  pose proof (kept_error _ _ _ _ G) as (K0 & _).
  assert (K1 : kept (k_eigs k) (e_reg q) x) by (eapply kept_trans; [exact K0|]; destruct K as [KA KB KC KD KE]; constructor; auto).
  exists x, x1, n, g, H, M. split; [eapply kept_points; eauto|]. split; [apply (k_len _ _ _ K1)|]. split; [exact GH|].
  split; [rewrite EMo, EL; apply damp_symmetric; eapply hessian_symmetric; eauto|]. split; [reflexivity|]. rewrite EMo, EL.
  destruct om; [reflexivity | |].
  - exists la. split; [auto|]. split; [intros i j; unfold damp; cbn; destruct (i =? j)%nat; reflexivity|]. cbn [nth app map seq]. intros SM. pose proof (smallest_spherical _ _ _ SM) as S2. split; auto.
    intros S3. destruct S2 as [(u & Uu & Eu) _]. destruct S3 as [_ L3]. specialize (L3 u Uu). specialize (LA eq_refl). lra.
  - exists la. split; [auto|]. intros i j; unfold damp; cbn. destruct (i =? j)%nat; reflexivity.
Qed.
Print Assumptions C78_eigenvalues.
(** After a gradient mode, or without a solve, they are those of the zero matrix. *)
Theorem C78_eigenvalues_gradient : forall k eigs6 ops e time l e', eval_run k eigs6 ops ereg_new = Some e -> print_evaluate (k_eigs k) eigs6 time e = Some (l, e') ->
  last_mode ops = GRADIENT \/ last_mode ops = GRADIENT_BENGIOS_NAG \/ last_mode ops = GRADIENT_ALL_POSES ->
  skipn 7 l = map (eigs6 (fun _ _ => 0)) (seq 0 6) /\ (smallest6 (fun _ _ => 0) (nth 7 l 0) -> nth 7 l 0 = 0).
Proof.
  intros k e6 ops e t l e' E P M. pose proof (run_facts _ _ _ _ E) as [_ _ EM _ _]. apply print_shape in P. destruct P as (err & r2 & H & _ & S & _ & -> & _).
  unfold hessian_shown in S. rewrite EM in S. assert (H = fun _ _ => 0) by (destruct M as [M | [M | M]]; rewrite M in S; congruence). subst H. split; [reflexivity|].
  intros [(u & _ & Z) _]. rewrite <- Z. unfold form6. cbn [sumn]. ring.
Qed.
Print Assumptions C78_eigenvalues_gradient.
(** After INITIALIZE or GN_CLAMPED_HESSIAN they are those of the last report. *)
Theorem C78_eigenvalues_stale : forall k eigs6 a time q l q' b e time' l' e', eval_run k eigs6 a ereg_new = Some q -> print_evaluate (k_eigs k) eigs6 time q = Some (l, q') ->
  Forall unreported b -> eval_run k eigs6 b q' = Some e -> print_evaluate (k_eigs k) eigs6 time' e = Some (l', e') ->
  last_mode (a ++ EEvaluate time :: b) = INITIALIZE \/ last_mode (a ++ EEvaluate time :: b) = GN_CLAMPED_HESSIAN -> skipn 7 l' = skipn 7 l.
Proof.
  intros k e6 a t q l q' b e t' l' e' E P U E2 P2 M.
  assert (ER : eval_run k e6 (a ++ EEvaluate t :: b) ereg_new = Some e).
  { generalize dependent ereg_new. clear M. induction a as [|o a IH]; intros e0 E0; cbn [app eval_run] in *; [injection E0 as ->; cbn [eval_step]; rewrite P; exact E2|]. destruct (eval_step k e6 o e0); [auto | discriminate]. }
  pose proof (run_facts _ _ _ _ ER) as [_ _ EM _ _]. apply run_unreported in E2; auto. apply print_shape in P. destruct P as (err & r2 & H & _ & S & _ & -> & ->). cbn [e_kept] in E2.
  apply print_shape in P2. destruct P2 as (err' & r2' & H' & _ & S' & _ & -> & _). unfold hessian_shown in S'. rewrite EM in S'. assert (H' = H) by (destruct M as [M | M]; rewrite M in S'; congruence). subst H'. reflexivity.
Qed.
Print Assumptions C78_eigenvalues_stale.

(** four corners of a cube, seen from the first of two poses *)
Definition corner_points : list V3 := [mkV3 0 0 0; mkV3 1 0 0; mkV3 0 1 0; mkV3 0 0 1].
Definition corner : list reg_op := [RSet 1 2; RNew 0] ++ map (RPush 0 0) corner_points.
Definition corner_pushes : list plane_op := map (fun x => Push x 0) corner_points.
(** False in the code: entry 0 is not the number of planes, and entry 5 can be of
    another problem: set_number_planes_and_poses keeps it. *)
Theorem C78_planes_refuted : exists k eigs6 ops e l e', Forall eval_ok ops /\ eval_run k eigs6 ops ereg_new = Some e /\ print_evaluate (k_eigs k) eigs6 0 e = Some (l, e') /\
  length (planes_of (erase ops)) = 1%nat /\ nth 0 l 0 = 3.
Proof.
  exists (mkKernels (fun _ => mkEigen4 0 v4zero) (fun _ _ _ _ => 0) (fun _ => mkSvd m3id v3zero m3id)), (fun _ _ => 0), [EOp (RSet 3 2); EOp (RNew 0)]. eexists. eexists. eexists.
  split; [repeat constructor|]. split; [reflexivity|]. split; [reflexivity|]. split; [reflexivity|]. cbn. ring.
Qed.
Print Assumptions C78_planes_refuted.
(** and adding one plane more than declared makes the report write out of range,
    though every other call works *)
Theorem C78_range_refuted : exists k eigs6 ops e, Forall eval_ok ops /\ enabled_all (0%nat, []) (erase ops ++ [RSolve MODE_LM_SPHER false]) /\ eval_run k eigs6 ops ereg_new = Some e /\ print_evaluate (k_eigs k) eigs6 0 e = None.
Proof.
  exists (mkKernels (fun _ => mkEigen4 0 v4zero) (fun _ _ _ _ => 0) (fun _ => mkSvd m3id v3zero m3id)), (fun _ _ => 0), [EOp (RSet 1 2); EOp (RNew 0); EOp (RNew 1)]. eexists.
  split; [repeat constructor|]. split; [repeat split; cbn; try lia; repeat constructor|]. split; reflexivity.
Qed.
Print Assumptions C78_range_refuted.
Theorem C78_initial_error_refuted : exists k eigs6 ops e l e', (forall Q, m4tr Q = Q -> exact4 (k_eigs k) Q) /\ Forall eval_ok ops /\ eval_run k eigs6 ops ereg_new = Some e /\ print_evaluate (k_eigs k) eigs6 0 e = Some (l, e') /\
  planes_of (erase ops) = [] /\ 0 < nth 5 l 0.
Proof.
  destruct exact4_all_exists as [f X]. set (k := mkKernels f (fun _ _ _ _ => 0) (fun _ => mkSvd m3id v3zero m3id)). set (e6 := fun (_ : nat -> nat -> R) (_ : nat) => 0).
  assert (EN : enabled_all (0%nat, []) corner) by (repeat split; cbn; try lia; repeat constructor).
  destruct (C68_defined k _ EN) as (r & RU). destruct (run_lift k e6 corner ereg_new r RU) as (q & EQ & <-).
  assert (EN2 : enabled_all (0%nat, []) (corner ++ [RSolve GRADIENT false; RSet 0 1])) by (repeat split; cbn; try lia; repeat constructor; cbn; lia).
  destruct (C68_defined k _ EN2) as (r2 & RU2). rewrite reg_run_app, RU in RU2. destruct (run_lift k e6 [RSolve GRADIENT false; RSet 0 1] q r2 RU2) as (e & EE & <-). cbn [map] in EE.
  set (ops := map EOp corner ++ [EOp (RSolve GRADIENT false); EOp (RSet 0 1)]).
  assert (ER : eval_run k e6 ops ereg_new = Some e).
  { unfold ops. clear - EQ EE. generalize dependent ereg_new. induction (map EOp corner) as [|o l IH]; intros e0 E0; cbn [app] in *; [injection E0 as ->; exact EE|]. cbn [eval_run] in *. destruct (eval_step k e6 o e0); [auto | discriminate]. }
  assert (OK : Forall eval_ok ops) by (repeat constructor).
  assert (ES : erase ops = corner ++ [RSolve GRADIENT false; RSet 0 1]) by reflexivity.
  destruct (proj2 (C78_defined k e6 ops e 0 OK ER ltac:(cbn; lia))) as (l & e' & P).
  { split; [constructor|]. split; [cbn; lia|]. intros [H|H]; discriminate H. }
  exists k, e6, ops, e, l, e'. split; [exact X|]. split; [exact OK|]. split; [exact ER|]. split; [exact P|]. split; [reflexivity|].
  assert (FO : Forall eval_ok (map EOp corner)) by (repeat constructor).
  assert (NC : (0 < poses_of (erase (map EOp corner)))%nat) by (rewrite erase_lift; cbn; lia).
  assert (UB : Forall unsolved [EOp (RSet 0 1)]) by (repeat constructor).
  destruct (C78_last_solve k e6 (map EOp corner) GRADIENT false _ q e 0 l e' FO EQ NC UB EE P) as [TE _].
  specialize (TE X). rewrite erase_lift in TE. pose proof (total_nonneg _ _ _ TE) as NN. destruct (Req_dec (nth 5 l 0) 0) as [Z | NZ]; [exfalso | lra].
  assert (FR : Forall reg_ok corner) by (repeat constructor). assert (NR : (2 <= poses_of corner)%nat) by (cbn; lia).
  destruct (C69_trajectory k corner (e_reg q) FR RU ltac:(lia)) as (LT & _ & FP & _). specialize (FP NR). destruct (total_zero _ _ _ TE Z 0%nat 2%nat corner_pushes) as (v & NV & IP); [left; reflexivity|].
  apply NV. destruct (pr_traj (e_reg q)) as [|T tr]; [discriminate FP|]. cbn [nth_error] in FP. injection FP as ->.
  assert (PT : forall x, In x corner_points -> plane_at v x = 0).
  { intros x Ix. rewrite <- (move_id x). apply (IP m4id corner_points x); auto. left. reflexivity. }
  pose proof (PT (mkV3 0 0 0) ltac:(cbn; tauto)) as P0. pose proof (PT (mkV3 1 0 0) ltac:(cbn; tauto)) as P1. pose proof (PT (mkV3 0 1 0) ltac:(cbn; tauto)) as P2. pose proof (PT (mkV3 0 0 1) ltac:(cbn; tauto)) as P3.
  destruct v as [[a b c] d]. unfold plane_at in *. lin_unfold_in P0. lin_unfold_in P1. lin_unfold_in P2. lin_unfold_in P3. assert (d = 0) by lra. assert (a = 0) by lra. assert (b = 0) by lra. assert (c = 0) by lra. subst. lin_unfold. ring.
Qed.
Print Assumptions C78_initial_error_refuted.

(** The six faces of a box: solved, then reported. *)
Definition box_solved : list eval_op := map EOp box ++ [EOp (RSolve MODE_LM_SPHER false)].
Lemma box_sizes : poses_of box = 3%nat /\ sizes 3 (planes_of box) /\ length (planes_of box) = 6%nat.
Proof. unfold poses_of, planes_of. rewrite box_history. split; [reflexivity|]. split; [unfold sizes; apply Forall_map, Forall_forall; auto|]. reflexivity. Qed.
Lemma box_count : list_sum (map (fun q => count_pushed (fst (snd q)) (snd (snd q))) (extend (fun _ => true) (Estimate []) (planes_of box))) = 54%nat.
Proof. unfold planes_of. rewrite box_history. reflexivity. Qed.
Lemma lm_enabled h n l s : h = (n, l) -> (0 < n)%nat -> sizes n l -> enabled h (RSolve MODE_LM_SPHER s).
Proof. intros -> A B. split; auto. Qed.
Lemma box_enabled_lm : enabled_all (0%nat, []) (box ++ [RSolve MODE_LM_SPHER false]).
Proof.
  apply enabled_snoc. split; [exact box_enabled|]. eapply lm_enabled; [exact box_history | lia | unfold sizes; apply Forall_map, Forall_forall; auto].
Qed.
Lemma box_solved_erased : erase box_solved = box ++ [RSolve MODE_LM_SPHER false].
Proof. unfold box_solved. rewrite erase_snoc, erase_lift. reflexivity. Qed.
Lemma note_solve ops m s : poses_of (ops ++ [RSolve m s]) = poses_of ops /\ planes_of (ops ++ [RSolve m s]) = extend (fun _ => true) (Estimate []) (planes_of ops).
Proof. unfold poses_of, planes_of. rewrite history_snoc. split; reflexivity. Qed.
Lemma box_solved_history : poses_of (erase box_solved) = 3%nat /\ planes_of (erase box_solved) = extend (fun _ => true) (Estimate []) (planes_of box).
Proof. destruct box_sizes as (HP & _). rewrite box_solved_erased. destruct (note_solve box MODE_LM_SPHER false) as [-> ->]. auto. Qed.
Lemma box_solved_mode : last_mode box_solved = MODE_LM_SPHER /\ declared box_solved = 6%nat.
Proof. split; reflexivity. Qed.
Example C78_ex : forall k eigs6, exists q e l e', Forall eval_ok (map EOp box) /\ eval_run k eigs6 (map EOp box) ereg_new = Some q /\ (0 < poses_of (erase (map EOp box)))%nat /\
  eval_run k eigs6 [EOp (RSolve MODE_LM_SPHER false)] q = Some e /\ eval_run k eigs6 box_solved ereg_new = Some e /\ print_evaluate (k_eigs k) eigs6 0 e = Some (l, e') /\
  nth 0 l 0 = 6 /\ nth 1 l 0 = 3 /\ nth 2 l 0 = 54.
Proof.
  intros k e6. assert (BN : Forall reg_ok box) by (destruct (enabled_run k box box_enabled) as (_ & _ & F); exact F). destruct box_sizes as (HP & HS & HL).
  destruct (C68_defined k _ box_enabled) as (r & RU). destruct (run_lift k e6 box ereg_new r RU) as (q & EQ & <-).
  destruct (C68_defined k _ box_enabled_lm) as (r2 & RU2). rewrite reg_run_app, RU in RU2. destruct (run_lift k e6 [RSolve MODE_LM_SPHER false] q r2 RU2) as (e & EE & <-). cbn [map] in EE.
  assert (ER : eval_run k e6 box_solved ereg_new = Some e).
  { unfold box_solved. eapply eval_join; [exact EQ|]. clear - EE. cbn [eval_run] in EE. destruct (eval_step k e6 (EOp (RSolve MODE_LM_SPHER false)) q); [exact EE | discriminate]. }
  assert (OK : Forall eval_ok box_solved) by (unfold box_solved; apply Forall_app; split; [apply lift_ok; exact BN | repeat constructor]).
  destruct box_solved_history as [HP2 HL2]. destruct box_solved_mode as [HM HD].
  assert (N2 : (0 < poses_of (erase box_solved))%nat) by (rewrite HP2; lia).
  destruct (proj2 (C78_defined k e6 box_solved e 0 OK ER N2)) as (l & e' & P).
  { rewrite HP2, HL2, HM, HD. split; [unfold fits, extend; rewrite Forall_map; cbn [fst snd]; eapply Forall_impl; [|exact HS]; cbn; lia|]. split; [unfold extend; rewrite map_length, HL; lia|]. intros [H|H]; discriminate H. }
  destruct (C78_report k e6 box_solved e 0 l e' OK ER N2 P) as (_ & R0 & R1 & R2 & _). rewrite HP2 in R1. rewrite HD in R0. rewrite HL2, box_count in R2.
  exists q, e, l, e'. split; [apply lift_ok; exact BN|]. split; [exact EQ|]. split; [rewrite erase_lift, HP; lia|]. split; [exact EE|]. split; [exact ER|]. split; [exact P|].
  rewrite R0, R1, R2, !INR_IZR_INZ. auto.
Qed.
Lemma note_count ops : poses_of (ops ++ [RCount; RError]) = poses_of ops /\ planes_of (ops ++ [RCount; RError]) = extend (fun _ => true) (Estimate []) (planes_of ops).
Proof. change [RCount; RError] with ([RCount] ++ [RError]). rewrite app_assoc. unfold poses_of, planes_of. rewrite !history_snoc. split; reflexivity. Qed.
Lemma fits_extend n h sel o : fits n h -> fits n (extend sel o h).
Proof. unfold fits, extend. intros F. rewrite Forall_map. eapply Forall_impl; [|exact F]. intros [i [m l]] H. destruct (sel _); exact H. Qed.
Example C78_stale_ex : forall k eigs6, exists q l q' e l' e', eval_run k eigs6 box_solved ereg_new = Some q /\ print_evaluate (k_eigs k) eigs6 0 q = Some (l, q') /\ Forall unreported [EOp (RSolve GN_CLAMPED_HESSIAN false)] /\
  eval_run k eigs6 [EOp (RSolve GN_CLAMPED_HESSIAN false)] q' = Some e /\ print_evaluate (k_eigs k) eigs6 1 e = Some (l', e') /\
  last_mode (box_solved ++ EEvaluate 0 :: [EOp (RSolve GN_CLAMPED_HESSIAN false)]) = GN_CLAMPED_HESSIAN.
Proof.
  intros k e6. destruct (C78_ex k e6) as (_ & q & l & q' & BO & _ & _ & _ & EQ & P & _). exists q, l, q'.
  assert (OK : Forall eval_ok (box_solved ++ [EEvaluate 0])) by (unfold box_solved; repeat (apply Forall_app; split); auto; repeat constructor).
  assert (E1 : eval_run k e6 (box_solved ++ [EEvaluate 0]) ereg_new = Some q') by (eapply eval_join; [exact EQ|]; cbn [eval_step]; rewrite P; reflexivity).
  pose proof (run_facts _ _ _ _ E1) as [RU _ _ _ _]. destruct box_solved_history as [HP2 HL2]. destruct box_sizes as (HP & HS & HL).
  assert (HH : poses_of (erase (box_solved ++ [EEvaluate 0])) = 3%nat /\ fits 3 (planes_of (erase (box_solved ++ [EEvaluate 0]))) /\ length (planes_of (erase (box_solved ++ [EEvaluate 0]))) = 6%nat).
  { rewrite erase_snoc. destruct (note_count (erase box_solved)) as [-> ->]. rewrite HP2, HL2. split; auto. split; [apply fits_extend, fits_extend; eapply Forall_impl; [|exact HS]; cbn; lia | unfold extend; rewrite !map_length; exact HL]. }
  destruct HH as (HP3 & HF3 & HL3).
  destruct (C68_error k _ _ (erase_ok _ OK) RU ltac:(rewrite HP3; lia)) as [D _]. rewrite HP3 in D. apply D in HF3 as HG. destruct HG as (e0 & r0 & G).
  assert (ST : exists e, eval_step k e6 (EOp (RSolve GN_CLAMPED_HESSIAN false)) q' = Some e) by (cbn [eval_step reg_step]; unfold preg_solve; rewrite G; cbn; eauto). destruct ST as (e & ST).
  set (o := EOp (RSolve GN_CLAMPED_HESSIAN false)) in *.
  assert (OK2 : Forall eval_ok ((box_solved ++ [EEvaluate 0]) ++ [o])) by (apply Forall_app; split; auto; repeat constructor).
  assert (E2 : eval_run k e6 ((box_solved ++ [EEvaluate 0]) ++ [o]) ereg_new = Some e) by (eapply eval_join; eauto).
  assert (HH : poses_of (erase ((box_solved ++ [EEvaluate 0]) ++ [o])) = 3%nat /\ fits 3 (planes_of (erase ((box_solved ++ [EEvaluate 0]) ++ [o]))) /\ length (planes_of (erase ((box_solved ++ [EEvaluate 0]) ++ [o]))) = 6%nat).
  { rewrite erase_snoc. cbn [o]. destruct (note_solve (erase (box_solved ++ [EEvaluate 0])) GN_CLAMPED_HESSIAN false) as [-> ->]. rewrite HP3. split; auto. split; [apply fits_extend; exact HF3 | unfold extend; rewrite map_length; exact HL3]. }
  destruct HH as (HP4 & HF4 & HL4).
  assert (MD : last_mode ((box_solved ++ [EEvaluate 0]) ++ [o]) = GN_CLAMPED_HESSIAN /\ declared ((box_solved ++ [EEvaluate 0]) ++ [o]) = 6%nat /\ evaluated ((box_solved ++ [EEvaluate 0]) ++ [o]) = true) by (split; [|split]; reflexivity).
  destruct MD as (MD & DE & EV).
  destruct (proj2 (C78_defined k e6 _ e 1 OK2 E2 ltac:(rewrite HP4; lia))) as (l' & e' & P').
  { rewrite HP4, HL4, DE. auto. }
  exists e, l', e'. split; [exact EQ|]. split; [exact P|]. split; [repeat constructor|]. split; [cbn [eval_run]; rewrite ST; reflexivity|]. split; [exact P'|]. rewrite <- app_assoc in MD. exact MD.
Qed.
