(** C79: planar sessions in two coordinate frames. *)
Require Import Reals List Arith Lia Lra Psatz Bool.
From Verif Require Import Lin SO3 Angle AngleProofs Nodes NodesProofs Robust RobustProofs Graph GraphProofs Sums Solve SpecSolve SolveIndex SolveFrame SolveSums SolveBuild SolveProofs Session SessionProofs.
From Verif Require Import Factors SpecFactors FactorsDer FactorsPlanar FactorsSession SpecFrame FrameFactors FrameSolve FrameSession Gauss.
Import ListNotations.
Local Open Scope R_scope.

(** *** Solving commutes with a change of coordinates
    A planar session and the same session in moved coordinates: all states stay
    moved copies of each other, through any number of calls of solve, and every
    chi2 is the same. The linear solver solves nonsingular systems; the systems
    of the Gauss-Newton solves are nonsingular (those of Levenberg-Marquardt always
    are). *)
Theorem C79_sessions : forall lin rob g cs cs', exact lin -> rob <> RANSAC -> typed [] cs -> Forall2 (framed true g) cs cs' -> posed lin rob (solver_new world_new) cs ->
  exists s s', pycalls lin rob (solver_new world_new) cs = Some s /\ pycalls lin rob (solver_new world_new) cs' = Some s' /\
    Forall2 (moved g) (get_estimated_state (s_w s)) (get_estimated_state (s_w s')) /\
    get_chi2_array (s_w s') = get_chi2_array (s_w s) /\ forall e, snd (chi2 e (s_w s')) = snd (chi2 e (s_w s)).
Proof. intros. apply (sessions_sim true); auto. Qed.
Print Assumptions C79_sessions.
(** *** Costs, without calls of solve: any information matrices, any robust
    function, any linear solver *)
Theorem C79_costs : forall lin rob g cs cs', typed [] cs -> Forall2 (framed false g) cs cs' ->
  exists s s', pycalls lin rob (solver_new world_new) cs = Some s /\ pycalls lin rob (solver_new world_new) cs' = Some s' /\
    Forall2 (moved g) (get_estimated_state (s_w s)) (get_estimated_state (s_w s')) /\
    get_chi2_array (s_w s') = get_chi2_array (s_w s) /\ forall e, snd (chi2 e (s_w s')) = snd (chi2 e (s_w s)).
Proof. intros. apply (sessions_sim false); auto; discriminate. Qed.
Print Assumptions C79_costs.
(** Gaussian elimination is such a linear solver. *)
Theorem C79_exact_solver : exists lin, exact lin.
Proof. exists gauss. exact gauss_exact. Qed.
Print Assumptions C79_exact_solver.

(** *** Initialisation
    Factor2Poses2d with updateNodeTarget adds the relative pose to the origin
    without turning it: in turned coordinates the target goes elsewhere. *)
Definition quarter : frame := mkFrame (PI / 2) 0 0.
Lemma quarter_cs : cos (fr_angle quarter) = 0 /\ sin (fr_angle quarter) = 1.
Proof. split; [apply cos_PI2 | apply sin_PI2]. Qed.
Lemma quarter_moved : moved quarter (P2 (mkV3 0 0 0)) (P2 (mkV3 0 0 (PI / 2))).
Proof. destruct quarter_cs as [C S]. unfold moved, seen_x, seen_y; cbn [vx vy vz]. rewrite C, S; cbn. repeat split; try ring. exists 0%Z. ring. Qed.
Definition id3 : nat -> nat -> R := fun i j => if Nat.eqb i j then 1 else 0.
Lemma id3_quad n x y : quad n id3 x y = sumn n (fun i => x i * y i).
Proof.
  unfold quad. apply sumn_ext; intros i Hi. rewrite (sumn_single n i); auto. unfold id3. rewrite Nat.eqb_refl. ring.
  intros k _ K. unfold id3. destruct (Nat.eqb_spec i k); [congruence|ring].
Qed.
Lemma id3_proper n : proper n id3.
Proof.
  split. { intros i j _ _. unfold id3. rewrite Nat.eqb_sym. reflexivity. } intros x. rewrite id3_quad. apply sumn_nonneg. intros; nra.
Qed.
Lemma id3_turned n g : (2 <= n)%nat -> turned n g id3 id3.
Proof. intros H u v. rewrite !id3_quad. apply turn_dot; auto. Qed.
Definition init_calls (p q : V3) : list pycall := [CNode ANCHOR (P2 p); CNode STANDARD (P2 q); C2Poses2d (mkV3 1 0 0) 0 1 id3 true].
Lemma init_run p q : exists s, pycalls gauss QUADRATIC (solver_new world_new) (init_calls p q) = Some s /\
  get_estimated_state (s_w s) = [P2 p; P2 (wrap3 (wrap3 (v3add q (dx3 (lvec (l3 (v3sub (v3add p (mkV3 1 0 0)) q)))))))].
Proof. eexists. split; [unfold init_calls, pycalls; cbn; reflexivity|]. reflexivity. Qed.
Theorem C79_initialise_refuted : exists g cs cs' s s', typed [] cs /\
  Forall2 (fun c c' => framed true g c c' \/ exists obs i j W upd, c = C2Poses2d obs i j W upd /\ c' = c /\ proper 3 W) cs cs' /\
  pycalls gauss QUADRATIC (solver_new world_new) cs = Some s /\ pycalls gauss QUADRATIC (solver_new world_new) cs' = Some s' /\
  ~ Forall2 (moved g) (get_estimated_state (s_w s)) (get_estimated_state (s_w s')).
Proof.
  destruct (init_run (mkV3 0 0 0) (mkV3 0 0 0)) as (s & E & X). destruct (init_run (mkV3 0 0 (PI / 2)) (mkV3 0 0 (PI / 2))) as (s' & E' & X').
  exists quarter, (init_calls (mkV3 0 0 0) (mkV3 0 0 0)), (init_calls (mkV3 0 0 (PI / 2)) (mkV3 0 0 (PI / 2))), s, s'.
  split. { cbn. repeat split; try discriminate; auto. }
  split. { pose proof quarter_moved as A.
    constructor; [left; split; [reflexivity|exact A]|]. constructor; [left; split; [reflexivity|exact A]|].
    constructor; [|constructor]. right. do 5 eexists. split; [reflexivity|]. split; [reflexivity|]. apply id3_proper. }
  split; [exact E|]. split; [exact E'|]. rewrite X, X'. intros F. inversion F as [|? ? ? ? _ F1]; subst. inversion F1 as [|? ? ? ? M _]; subst. destruct M as (M & _). clear - M.
  unfold wrap3, v3add, v3sub, dx3, lvec, l3, seen_x in M. cbn in M. rewrite cos_PI2, sin_PI2 in M. lra.
Qed.
Print Assumptions C79_initialise_refuted.

(** *** Odometry
    The residual of odometry is a difference in world coordinates (there is no
    rotation into the frame of the origin pose), so its information matrix is
    about the axes of the world: untouched, it means something else in turned
    coordinates. Observing (1, 0, 0) and then (0, 0, 0) between the same poses: chi2
    is half the information about x in one frame, about y in the other. *)
Definition diag2 (a b : R) : nat -> nat -> R := fun i j => if Nat.eqb i j then match i with 0%nat => a | 1%nat => b | _ => 1 end else 0.
Lemma diag2_proper n a b : 0 <= a -> 0 <= b -> proper n (diag2 a b).
Proof.
  intros A B. split. { intros i j _ _. unfold diag2. rewrite Nat.eqb_sym. destruct (Nat.eqb_spec j i) as [->|]; auto. }
  intros x. unfold quad. apply sumn_nonneg. intros i Hi. rewrite (sumn_single n i); auto.
  - unfold diag2. rewrite Nat.eqb_refl. destruct i as [|[|i]]; nra.
  - intros k _ K. unfold diag2. destruct (Nat.eqb_spec i k); [congruence|ring].
Qed.
Definition odom_calls (p : V3) : list pycall :=
  [CNode ANCHOR (P2 p); CNode STANDARD (P2 p); COdom2d (mkV3 0 1 0) 0 1 (diag2 1 4); COdom2d v3zero 0 1 (diag2 1 4)].
Lemma diag2_quad a b x y : quad 3 (diag2 a b) x y = a * (x 0%nat * y 0%nat) + b * (x 1%nat * y 1%nat) + x 2%nat * y 2%nat.
Proof. unfold quad, diag2. cbn. ring. Qed.
Definition odom_step (obs o t : V3) : V3 := wrap3 (wrap3 (v3add t (dx3 (lvec (l3 (v3sub (odom_prediction o obs) t)))))).
Lemma odom_back th : - PI <= th < PI -> odom_step v3zero (mkV3 0 0 th) (mkV3 (cos th) (sin th) th) = mkV3 0 0 th.
Proof.
  intros H. unfold odom_step, odom_prediction, wrap3, dx3, lvec, l3, v3sub, v3add, v3zero. cbn.
  replace (th + (th + 0 + 0 - th)) with th by ring. rewrite !wrap_angle_id by (rewrite ?wrap_angle_id; auto). f_equal; ring.
Qed.
Lemma odom_ahead th : - PI <= th < PI -> odom_step (mkV3 0 1 0) (mkV3 0 0 th) (mkV3 0 0 th) = mkV3 (cos th) (sin th) th.
Proof.
  intros H. unfold odom_step, odom_prediction, wrap3, dx3, lvec, l3, v3sub, v3add. cbn.
  replace (th + (th + 0 + 0 - th)) with th by ring. rewrite !wrap_angle_id by (rewrite ?wrap_angle_id; auto). rewrite Rplus_0_r. f_equal; ring.
Qed.
Lemma odom_run o : exists s, pycalls gauss QUADRATIC (solver_new world_new) (odom_calls o) = Some s /\ valid_factors (s_w s) /\
  let t := odom_step v3zero o (odom_step (mkV3 0 1 0) o o) in let r1 := lvec (l3 (res_odom (mkV3 0 1 0) o t)) in let r2 := lvec (l3 (res_odom v3zero o t)) in
  chi2_of (s_w s) = 1 / 2 * quad 3 (diag2 1 4) r1 r1 + (1 / 2 * quad 3 (diag2 1 4) r2 r2 + 0).
Proof.
  eexists. split; [cbv -[odom_prediction v3sub v3add wrap3 res_odom jac_odom diag2 lvec l3 dx3 lmat IZR v3zero]; reflexivity|]. split; [intros l [<-|[<-|[]]]; cbn; lia|]. reflexivity.
Qed.
Lemma odom_cost th : - PI <= th < PI ->
  exists s, pycalls gauss QUADRATIC (solver_new world_new) (odom_calls (mkV3 0 0 th)) = Some s /\ snd (chi2 true (s_w s)) = 1 / 2 * (cos th * cos th + 4 * (sin th * sin th)).
Proof.
  intros H. destruct (odom_run (mkV3 0 0 th)) as (s & E & V & X). exists s. split; auto. rewrite (chi2_true _ V). cbn [snd]. rewrite X. cbv zeta. rewrite odom_ahead by auto. rewrite odom_back by auto. clear.
  rewrite !diag2_quad. unfold res_odom, odom_prediction, wrap3, v3sub, v3zero, lvec, l3. cbn. rewrite !Rplus_0_r.
  replace (th - th) with 0 by ring. rewrite wrap_angle_id by (pose proof PI_RGT_0; lra). field.
Qed.
Theorem C79_odometry_refuted : exists g cs cs' s s', typed [] cs /\
  Forall2 (fun c c' => framed true g c c' \/ exists obs i j W, c = COdom2d obs i j W /\ c' = c /\ proper 3 W) cs cs' /\
  pycalls gauss QUADRATIC (solver_new world_new) cs = Some s /\ pycalls gauss QUADRATIC (solver_new world_new) cs' = Some s' /\
  snd (chi2 true (s_w s')) <> snd (chi2 true (s_w s)).
Proof.
  pose proof PI_RGT_0 as Pi. destruct (odom_cost 0) as (s & E & X); [lra|]. destruct (odom_cost (PI / 2)) as (s' & E' & X'); [lra|].
  exists quarter, (odom_calls (mkV3 0 0 0)), (odom_calls (mkV3 0 0 (PI / 2))), s, s'. split. { cbn. repeat split; try discriminate; auto. }
  split. { assert (A : moved quarter (P2 (mkV3 0 0 0)) (P2 (mkV3 0 0 (PI / 2)))) by exact quarter_moved.
    assert (O : forall obs, framed true quarter (COdom2d obs 0 1 (diag2 1 4)) (COdom2d obs 0 1 (diag2 1 4)) \/ exists obs0 i j W, COdom2d obs 0 1 (diag2 1 4) = COdom2d obs0 i j W /\ COdom2d obs 0 1 (diag2 1 4) = COdom2d obs 0 1 (diag2 1 4) /\ proper 3 W).
    { intros obs. right. do 4 eexists. split; [reflexivity|]. split; [reflexivity|]. apply diag2_proper; lra. }
    constructor; [left; split; [reflexivity|exact A]|]. constructor; [left; split; [reflexivity|exact A]|].
    constructor; [apply O|]. constructor; [apply O|constructor]. }
  split; [exact E|]. split; [exact E'|]. rewrite X, X', cos_0, sin_0, cos_PI2, sin_PI2. lra.
Qed.
Print Assumptions C79_odometry_refuted.

(** *** Landmarks closer than a millimetre
    Their residual is set to zero and their Jacobian to the identity, whatever
    the heading of the pose: the information matrix then is about the axes of the
    world, not about range and bearing. An anchored pose on top of a landmark,
    information 1 about the range and 4 about the bearing, and a second one at
    distance 1 which has observed 2: one Gauss-Newton step moves the landmark away from
    the second pose, by 1/2 or by 1/5 depending on the axes. *)
Definition close_calls (p1 p2 : V3) : list pycall :=
  [CNode ANCHOR (P2 p1); CNode ANCHOR (P2 p2); CNode STANDARD (L2 0 0); CLandmark2d 1 0 0 2 (diag2 1 4) false; CLandmark2d 2 0 1 2 id3 false].
Definition close_jac (p : V3) (y : nat -> R) (i : nat) : R :=
  let J := lmat (beside (fst (jac_landmark2d p 0 0)) (snd (jac_landmark2d p 0 0))) in
  sumn 3 (fun k => J i k * 0) + (sumn 2 (fun k => J i (3 + k)%nat * y k) + 0).
Lemma close_run p1 p2 : exists s, pycalls gauss QUADRATIC (solver_new world_new) (close_calls p1 p2) = Some s /\ g_active (w_graph (s_w s)) = [2%nat] /\ g_stateDim (w_graph (s_w s)) = 2%nat /\
  g_nodes (w_graph (s_w s)) = [0; 1; 2]%nat /\ map (fun l => nst (n_data (nd (s_w s) l))) [0; 1; 2]%nat = [P2 p1; P2 p2; L2 0 0] /\
  (forall y d, gn_form (s_w s) y d = 1 * quad 2 (upper_sym (diag2 1 4)) (close_jac p1 y) (close_jac p1 d) + (1 * quad 2 (upper_sym id3) (close_jac p2 y) (close_jac p2 d) + 0)) /\
  (forall y, gn_rhs (s_w s) y = 1 * quad 2 (upper_sym (diag2 1 4)) (close_jac p1 y) (lvec (res_landmark2d 1 0 p1 0 0)) + (1 * quad 2 (upper_sym id3) (close_jac p2 y) (lvec (res_landmark2d 2 0 p2 0 0)) + 0)) /\
  (forall x, increments (s_w s) x 2%nat = x).
Proof.
  eexists. split; [cbv -[res_landmark2d jac_landmark2d diag2 id3 lvec lmat beside IZR]; reflexivity|]. split; [reflexivity|]. split; [reflexivity|]. split; [reflexivity|]. split; [reflexivity|].
  split; [reflexivity|]. split; reflexivity.
Qed.
Lemma calls_app lin rob cs1 : forall s cs2, pycalls lin rob s (cs1 ++ cs2) = match pycalls lin rob s cs1 with Some s1 => pycalls lin rob s1 cs2 | None => None end.
Proof.
  induction cs1 as [|c r IH]; intros s cs2; [reflexivity|]. cbn [app]. unfold pycalls in *. cbn [map pyrun].
  destruct (pystep lin rob s (pycall_op c)); [apply IH|reflexivity].
Qed.
Lemma posed_app lin rob cs1 : forall s s1 cs2, (forall c, In c cs1 -> match c with CSolve GN _ _ _ => False | _ => True end) -> pycalls lin rob s cs1 = Some s1 -> posed lin rob s1 cs2 -> posed lin rob s (cs1 ++ cs2).
Proof.
  induction cs1 as [|c r IH]; intros s s1 cs2 H E P. { cbn in E. injection E as <-. exact P. }
  cbn [app posed]. split. { specialize (H c (or_introl eq_refl)). destruct c; auto. destruct m; [contradiction|auto]. }
  unfold pycalls in E. cbn [map pyrun] in E. destruct (pystep lin rob s (pycall_op c)) as [s2|]; [|discriminate]. apply (IH s2 s1); auto. intros; apply H; right; auto.
Qed.
Lemma upper_diag a b : upper_sym (diag2 a b) = diag2 a b.
Proof. apply FunctionalExtensionality.functional_extensionality; intros i. apply FunctionalExtensionality.functional_extensionality; intros j. unfold upper_sym. destruct (Nat.leb i j); auto. unfold diag2. rewrite Nat.eqb_sym. destruct (Nat.eqb_spec i j) as [->|]; auto. Qed.
Lemma upper_id3 : upper_sym id3 = id3.
Proof. apply FunctionalExtensionality.functional_extensionality; intros i. apply FunctionalExtensionality.functional_extensionality; intros j. unfold upper_sym. destruct (Nat.leb i j); auto. unfold id3. rewrite Nat.eqb_sym. reflexivity. Qed.
Lemma close_on_top th y : (forall i, (i < 2)%nat -> close_jac (mkV3 0 0 th) y i = y i) /\ res_landmark2d 1 0 (mkV3 0 0 th) 0 0 = [0; 0].
Proof.
  unfold close_jac, jac_landmark2d, res_landmark2d. cbn [vx vy]. assert (L : Rltb ((0 - 0) * (0 - 0) + (0 - 0) * (0 - 0)) (1 / 1000000) = true) by (apply Rltb_iff; lra). cbv zeta. rewrite L.
  split; auto. intros i Hi. destruct i as [|[|i]]; [| |lia]; cbn; ring.
Qed.
Lemma close_away th y : let p := mkV3 (- cos th) (- sin th) th in
  close_jac p y 0%nat = cos th * y 0%nat + sin th * y 1%nat /\ close_jac p y 1%nat = - sin th * y 0%nat + cos th * y 1%nat /\ res_landmark2d 2 0 p 0 0 = [1 - 2; wrap_angle (atan2 (sin th) (cos th) - th - 0)].
Proof.
  intros p. unfold p, close_jac, jac_landmark2d, res_landmark2d. cbn [vx vy vz]. replace (0 - - cos th) with (cos th) by ring. replace (0 - - sin th) with (sin th) by ring. rewrite cs1.
  assert (L : Rltb 1 (1 / 1000000) = false) by (apply Rltb_niff; lra). cbv zeta. rewrite L, sqrt_1. repeat split; cbn; field.
Qed.
Lemma close_step th : wrap_angle (atan2 (sin th) (cos th) - th - 0) = 0 -> let p1 := mkV3 0 0 th in let p2 := mkV3 (- cos th) (- sin th) th in
  let cs := close_calls p1 p2 ++ [CSolve GN 1 0 0] in
  posed gauss QUADRATIC (solver_new world_new) cs /\ exists s, pycalls gauss QUADRATIC (solver_new world_new) cs = Some s /\ get_estimated_state (s_w s) = [P2 p1; P2 p2; L2 (cos th / 2) (sin th / 5)].
Proof.
  intros A p1 p2 cs. destruct (close_run p1 p2) as (s & E & Ac & Sd & Gn & St & F & H & Ic). cbn in St. injection St as St0 St1 St2.
  assert (F1 : forall y d, gn_form (s_w s) y d = 2 * (y 0%nat * d 0%nat) + 5 * (y 1%nat * d 1%nat)).
  { intros y d. rewrite F, upper_diag, upper_id3. unfold quad, diag2, id3. cbn.
    rewrite !(proj1 (close_on_top th _)) by lia. unfold p2. rewrite !(proj1 (close_away th _)), !(proj1 (proj2 (close_away th _))). pose proof (cs1 th) as T. set (c := cos th) in *. set (n := sin th) in *.
    replace (2 * (y 0%nat * d 0%nat) + 5 * (y 1%nat * d 1%nat)) with (1 * (y 0%nat * d 0%nat) + 4 * (y 1%nat * d 1%nat) + (c * c + n * n) * (y 0%nat * d 0%nat + y 1%nat * d 1%nat)) by (rewrite T; ring). ring. }
  assert (H1 : forall y, gn_rhs (s_w s) y = - (cos th * y 0%nat + sin th * y 1%nat)).
  { intros y. rewrite H, upper_diag, upper_id3. unfold p1, p2. destruct (close_away th y) as (C0 & C1 & ->). destruct (close_on_top th y) as (_ & ->). rewrite A. unfold quad, diag2, id3, lvec. cbn.
    rewrite C0, C1. ring. }
  assert (W : wf (s_w s)).
  { destruct (typed_run gauss QUADRATIC (close_calls p1 p2) [] [] (solver_new world_new) good_new tracks_new) as (s0 & E0 & G & _). { cbn. repeat split; auto; discriminate. } rewrite E in E0. injection E0 as <-. apply (gd_wf _ G). }
  assert (NS : forall b, build_problem false s = Some b -> nonsingular (g_stateDim (w_graph (s_w s))) (s_L b)).
  { intros b. apply gn_regular; auto. intros x X i Hi. rewrite F1 in X. rewrite Sd in Hi. destruct i as [|[|i]]; [nra|nra|lia]. }
  split. { apply (posed_app _ _ _ _ s); auto. { intros c [<-|[<-|[<-|[<-|[<-|[]]]]]]; exact I. } split; [exact NS|]. destruct (pystep _ _ _ _); exact I. }
  unfold cs. rewrite calls_app, E. unfold pycalls. cbn [map pycall_op pyrun pystep]. destruct (solve_total gauss GN 1 0 0 s W) as (s' & E'). rewrite E'. exists s'. split; [reflexivity|].
  destruct (gn_step gauss 1 0 0 s s' W gauss_exact NS E') as (Gr & O & dx & D & U). rewrite Ac in *. unfold get_estimated_state. rewrite Gr, Gn. cbn [map].
  rewrite (O 0%nat), (O 1%nat) by (intros [|[]]; discriminate). rewrite (U 0%nat 2%nat eq_refl), St0, St1, St2, Ic. cbn [val_update].
  pose proof (D (fun k => match k with 0%nat => 1 | _ => 0 end)) as D0. pose proof (D (fun k => match k with 1%nat => 1 | _ => 0 end)) as D1. rewrite F1, H1 in D0, D1.
  do 3 f_equal. f_equal; lra.
Qed.
Theorem C79_close_refuted : exists g cs cs' s s', typed [] cs /\
  Forall2 (fun c c' => framed true g c c' \/ exists r b i j W, c = CLandmark2d r b i j W false /\ c' = c /\ proper 2 W) cs cs' /\
  posed gauss QUADRATIC (solver_new world_new) cs /\ posed gauss QUADRATIC (solver_new world_new) cs' /\
  pycalls gauss QUADRATIC (solver_new world_new) cs = Some s /\ pycalls gauss QUADRATIC (solver_new world_new) cs' = Some s' /\
  ~ Forall2 (moved g) (get_estimated_state (s_w s)) (get_estimated_state (s_w s')).
Proof.
  pose proof PI_RGT_0 as Pi.
  destruct (close_step 0) as (P & s & E & X).
  { rewrite sin_0, cos_0. unfold atan2. replace (Rltb 0 1) with true by (symmetry; apply Rltb_iff; lra). rewrite wrap_angle_id; unfold Rdiv; rewrite Rmult_0_l, atan_0; lra. }
  destruct (close_step (PI / 2)) as (P' & s' & E' & X').
  { rewrite sin_PI2, cos_PI2. unfold atan2. replace (Rltb 0 0) with false by (symmetry; apply Rltb_niff; lra). replace (Rltb 0 1) with true by (symmetry; apply Rltb_iff; lra). rewrite wrap_angle_id; lra. }
  exists quarter. eexists. eexists. exists s, s'. split; [|split; [|split; [exact P|split; [exact P'|split; [exact E|split; [exact E'|]]]]]].
  - cbn. repeat split; auto; discriminate.
  - cbn [app close_calls]. destruct quarter_cs as [C S].
    assert (L : forall r i W, proper 2 W -> framed true quarter (CLandmark2d r 0 i 2 W false) (CLandmark2d r 0 i 2 W false) \/ exists r0 b i0 j W0, CLandmark2d r 0 i 2 W false = CLandmark2d r0 b i0 j W0 false /\ CLandmark2d r 0 i 2 W false = CLandmark2d r 0 i 2 W false /\ proper 2 W0).
    { intros. right. do 5 eexists. split; [reflexivity|]. split; [reflexivity|]. auto. }
    constructor. { left. split; [reflexivity|exact quarter_moved]. }
    constructor. { left. split; [reflexivity|]. unfold moved, seen_x, seen_y; cbn [vx vy vz]. rewrite C, S, cos_0, sin_0, cos_PI2, sin_PI2. cbn. repeat split; try ring. exists 0%Z. ring. }
    constructor. { left. split; [reflexivity|]. unfold moved, seen_x, seen_y. rewrite C, S. cbn. split; ring. }
    constructor. { apply L. apply diag2_proper; lra. } constructor. { apply L. apply id3_proper. }
    constructor; [|constructor]. left. repeat split.
  - rewrite X, X'. intros Q. inversion Q as [|? ? ? ? _ Q1]; subst. inversion Q1 as [|? ? ? ? _ Q2]; subst. inversion Q2 as [|? ? ? ? M _]; subst. destruct M as (_ & M). clear - M.
    unfold seen_y in M. cbn in M. rewrite cos_PI2, sin_PI2, cos_0, sin_0 in M. lra.
Qed.
Print Assumptions C79_close_refuted.

(** *** Example: in any second frame, with a prior, a Gauss-Newton solve, two more
    nodes, a relative pose, a landmark, odometry, and a Levenberg-Marquardt solve *)
Definition frame_pose (g : frame) (p : V3) : V3 := mkV3 (seen_x g (vx p) (vy p)) (seen_y g (vx p) (vy p)) (vz p + fr_angle g).
Definition two_frames (f : V3 -> V3) (l : nval) : list pycall :=
  [CNode STANDARD (P2 (f (mkV3 1 2 0))); CPose2d (f (mkV3 1 1 0)) 0 id3; CSolve GN 1 0 0; CNode STANDARD (P2 (f (mkV3 3 2 1))); C2Poses2d (mkV3 2 0 1) 0 1 id3 false;
   CNode STANDARD l; CLandmark2d 2 0 1 2 id3 false; COdom2d (mkV3 0 1 0) 0 1 id3; CSolve LM 5 0 0; CChi2 true].
Lemma frame_pose_moved g p : moved g (P2 p) (P2 (frame_pose g p)).
Proof. unfold moved, frame_pose; cbn. repeat split. exists 0%Z. ring. Qed.
Lemma posed_lm lin rob cs : (forall c, In c cs -> match c with CSolve GN _ _ _ => False | _ => True end) -> forall s, posed lin rob s cs.
Proof.
  induction cs as [|c r IH]; intros H s; [exact I|]. cbn [posed]. split. { specialize (H c (or_introl eq_refl)). destruct c; auto. destruct m; [contradiction|auto]. }
  destruct (pystep lin rob s (pycall_op c)); auto. apply IH. intros; apply H; right; auto.
Qed.
Lemma prior_run lin rob p o : exists s, pycalls lin rob (solver_new world_new) [CNode STANDARD (P2 p); CPose2d o 0 id3] = Some s /\ g_stateDim (w_graph (s_w s)) = 3%nat /\ wf (s_w s) /\ f_rob (fa (s_w s) 0) = rob /\
  (forall y d, gn_form (s_w s) y d = weight_at (s_w s) 0 * quad 3 (upper_sym id3) (fun i => sumn 3 (fun k => lmat jac_pose2d i k * y k) + 0) (fun i => sumn 3 (fun k => lmat jac_pose2d i k * d k) + 0) + 0).
Proof.
  assert (H : exists s, pycalls lin rob (solver_new world_new) [CNode STANDARD (P2 p); CPose2d o 0 id3] = Some s /\ g_stateDim (w_graph (s_w s)) = 3%nat /\ f_rob (fa (s_w s) 0) = rob /\
    (forall y d, gn_form (s_w s) y d = weight_at (s_w s) 0 * quad 3 (upper_sym id3) (fun i => sumn 3 (fun k => lmat jac_pose2d i k * y k) + 0) (fun i => sumn 3 (fun k => lmat jac_pose2d i k * d k) + 0) + 0)).
  { eexists. split; [cbv -[res_pose2d jac_pose2d id3 lvec lmat IZR]; reflexivity|]. repeat split. }
  destruct H as (s & E & H1 & H2 & H3). exists s. split; auto. split; auto. split; auto.
  destruct (typed_run lin rob [CNode STANDARD (P2 p); CPose2d o 0 id3] [] [] (solver_new world_new) good_new tracks_new) as (s0 & E0 & G & _). { cbn. repeat split; auto; discriminate. }
  rewrite E in E0. injection E0 as <-. apply (gd_wf _ G).
Qed.
Example C79_ex : forall g rob, rob <> RANSAC -> let cs := two_frames (fun p => p) (L2 5 2) in let cs' := two_frames (frame_pose g) (L2 (seen_x g 5 2) (seen_y g 5 2)) in
  exact gauss /\ typed [] cs /\ Forall2 (framed true g) cs cs' /\ posed gauss rob (solver_new world_new) cs.
Proof.
  intros g rob R cs cs'. split; [exact gauss_exact|]. split. { cbn. repeat split; auto; discriminate. }
  split.
  - pose proof (id3_proper 3) as P3. pose proof (id3_proper 2) as P2'. assert (T3 : turned 3 g id3 id3) by (apply id3_turned; lia). assert (T2 : turned 2 g id3 id3) by (apply id3_turned; lia).
    unfold cs, cs', two_frames. repeat (apply Forall2_cons; [unfold framed; repeat match goal with |- _ /\ _ => split end; auto; try discriminate; try apply frame_pose_moved; split; reflexivity|]). constructor.
  - change cs with ([CNode STANDARD (P2 (mkV3 1 2 0)); CPose2d (mkV3 1 1 0) 0 id3] ++ skipn 2 cs). destruct (prior_run gauss rob (mkV3 1 2 0) (mkV3 1 1 0)) as (s & E & Sd & W & Rb & F).
    apply (posed_app _ _ _ _ s); auto. { intros c [<-|[<-|[]]]; exact I. }
    cbn [skipn cs two_frames]. split.
    + intros b. apply gn_regular; auto. intros x X i Hi. rewrite Sd in Hi. rewrite F, upper_id3, id3_quad in X. assert (P : 0 < weight_at (s_w s) 0) by (unfold weight_at; rewrite Rb; apply robust_bounds; auto; apply sqrt_pos).
      assert (Q : x 0%nat * x 0%nat + x 1%nat * x 1%nat + x 2%nat * x 2%nat = 0) by (apply (Rmult_eq_reg_l (weight_at (s_w s) 0)); [rewrite Rmult_0_r, <- X; cbn; ring|lra]).
      destruct i as [|[|[|i]]]; [nra|nra|nra|lia].
    + destruct (pystep _ _ _ _); [|exact I]. apply posed_lm. intros c H. cbn in H. repeat (destruct H as [<-|H]; [exact I|]). destruct H.
Qed.
Example C79_ex_costs : forall g, let cs f l := [CNode STANDARD (P2 (f (mkV3 1 2 0))); CNode ANCHOR (P2 (f (mkV3 3 2 1))); C2Poses2d (mkV3 2 0 1) 0 1 (diag2 (- 1) 4) false; CNode STANDARD l; CLandmark2d 2 0 1 2 (diag2 1 4) true] in
  typed [] (cs (fun p => p) (L2 5 2)) /\ Forall2 (framed false g) (cs (fun p => p) (L2 5 2)) (cs (frame_pose g) (L2 (seen_x g 5 2) (seen_y g 5 2))).
Proof.
  intros g cs. split. { cbn. repeat split; auto; try discriminate. } unfold cs.
  repeat (apply Forall2_cons; [unfold framed; repeat match goal with |- _ /\ _ => split end; auto; try discriminate; try apply frame_pose_moved; split; reflexivity|]). constructor.
Qed.
