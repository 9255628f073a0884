(** C86: planar pose graphs without loops. *)
Require Import Reals List Arith Lia Lra Bool.
From Verif Require Import Lin LinFacts SpecGeom Angle AngleProofs Nodes Robust Graph Sums Solve SpecSolve SolveSums SolveProofs Session SessionProofs.
From Verif Require Import Factors SpecFactors SpecFrame Gauss FrameSolve SpecSolvable SolvableSession FactorsSession PropFrame PropSolvable SpecMapping MappingSession Reorder ReorderSolve SpecFixed Fixed SpecTree Tree.
Import ListNotations.
Local Open Scope R_scope.

Lemma consistent_chi2 rob cs w : inv rob cs w -> consistent cs (state_of w) -> chi2_of w = 0.
Proof.
  intros V C. rewrite (tracks_chi2 _ cs _ (iv_tracks _ _ _ V)). apply lsum_zero. intros c I. unfold call_chi2. specialize (C c I). unfold residual_zero, zero_residual in C.
  destruct (call_factor c) as [[[cl ids] W]|]; auto. specialize (C ltac:(discriminate)). unfold quad. rewrite sumn_zero; [ring|]. intros i Hi. apply sumn_zero. intros j Hj. rewrite (C i Hi). ring.
Qed.
(** *** With headings that meet their measurements, one Gauss-Newton step from any
    positions meets all measurements *)
Theorem C86_headings : forall lin rob cs k lambda tol s, exact lin -> rob <> RANSAC -> typed [] cs -> Forall call_info cs -> Forall solid_call cs -> (forall i, (i < length (nodes_of cs))%nat -> held cs i) -> tree cs ->
  pycalls lin rob (solver_new world_new) cs = Some s -> headings_met cs (state_of (s_w s)) -> exists t, solve lin GN k lambda tol s = Some t /\ consistent cs (state_of (s_w t)) /\ chi2_of (s_w t) = 0.
Proof.
  intros lin rob cs k la tol s X NR T P So Hd Tr E Hm. destruct (session_inv lin rob cs T) as (s0 & E0 & V & Fi). rewrite E in E0. injection E0 as <-.
  destruct (solve_total lin GN k la tol s (gd_wf _ (iv_good _ _ _ V))) as [t Et]. exists t. split; auto. assert (On : one_step 0 (s_w s)) by (apply (held_one rob cs); auto).
  destruct (tree_step lin rob cs k la tol s t X P NR T V On Tr Et) as [_ C]. specialize (C Hm). split; auto. destruct (solve_frame lin GN k la tol s t Et) as (Sk & _ & Kk). apply (consistent_chi2 rob cs); auto. apply (inv_skel rob cs _ _ V Sk Kk).
Qed.
Print Assumptions C86_headings.
(** *** From any states, two steps do; further solving changes nothing *)
Theorem C86_tree : forall lin rob cs k k' lambda lambda' tol tol' s, exact lin -> rob <> RANSAC -> typed [] cs -> Forall call_info cs -> Forall solid_call cs -> (forall i, (i < length (nodes_of cs))%nat -> held cs i) -> tree cs ->
  pycalls lin rob (solver_new world_new) cs = Some s -> exists t t', solve lin GN k lambda tol s = Some t /\ solve lin GN k' lambda' tol' t = Some t' /\
  headings_met cs (state_of (s_w t)) /\ consistent cs (state_of (s_w t')) /\ chi2_of (s_w t') = 0 /\
  forall m n la to, exists u, solve lin m n la to t' = Some u /\ forall i, state_of (s_w u) i = state_of (s_w t') i.
Proof.
  intros lin rob cs k k' la la' tol tol' s X NR T P So Hd Tr E. destruct (session_inv lin rob cs T) as (s0 & E0 & V & Fi). rewrite E in E0. injection E0 as <-. specialize (Fi So).
  destruct (solve_total lin GN k la tol s (gd_wf _ (iv_good _ _ _ V))) as [t Et]. assert (On : one_step 0 (s_w s)) by (apply (held_one rob cs); auto). destruct (solve_frame lin GN k la tol s t Et) as (Sk & _ & Kk). pose proof (inv_skel rob cs _ _ V Sk Kk) as Vt. pose proof (firm_solve _ _ _ _ _ _ _ Et Fi) as Ft.
  destruct (solve_total lin GN k' la' tol' t (gd_wf _ (iv_good _ _ _ Vt))) as [t' Et']. assert (Ont : one_step 0 (s_w t)) by (apply (held_one rob cs); auto). destruct (solve_frame lin GN k' la' tol' t t' Et') as (Sk' & _ & Kk'). pose proof (inv_skel rob cs _ _ Vt Sk' Kk') as Vt'. pose proof (firm_solve _ _ _ _ _ _ _ Et' Ft) as Ft'.
  exists t, t'. split; auto. split; auto. destruct (tree_step lin rob cs k la tol s t X P NR T V On Tr Et) as [Hm _]. destruct (tree_step lin rob cs k' la' tol' t t' X P NR T Vt Ont Tr Et') as [_ C]. specialize (C Hm). split; auto. split; auto. split; [apply (consistent_chi2 rob cs); auto|].
  intros m n l to. destruct (solve_total lin m n l to t' (gd_wf _ (iv_good _ _ _ Vt'))) as [u Eu]. exists u. split; auto. assert (R : at_rest rob cs (s_w t')) by (split; [auto|]; split; [apply consistent_balanced, C|apply (tree_settled lin rob cs k' la' tol' t t'); auto]).
  assert (Q : state_of (s_w u) = state_of (s_w t')); [|intros i; rewrite Q; reflexivity]. destruct m; [|apply (rest_lm lin rob cs X P NR n l to); auto]. apply (rest_gn lin rob cs X P NR n l to); auto. apply (held_one rob cs); auto.
Qed.
Print Assumptions C86_tree.
(** *** One step is not enough in general *)
Definition facing : list pycall := [CNode STANDARD (P2 (mkV3 0 0 0)); CNode ANCHOR (P2 (mkV3 1 0 0)); C2Poses2d (mkV3 1 0 (- (PI / 2))) 0 1 id3 false].
Lemma facing_ok : typed [] facing /\ Forall call_info facing /\ Forall solid_call facing /\ (forall i, (i < length (nodes_of facing))%nat -> held facing i) /\ tree facing.
Proof.
  split. { cbn. repeat split; auto; discriminate. } split. { repeat (apply Forall_cons; [first [exact I|exact (id3_proper 3)]|]). apply Forall_nil. } split. { repeat (apply Forall_cons; [exact I|]). apply Forall_nil. }
  split. { assert (H1 : held facing 1) by (eapply held_anchor; reflexivity). intros [|[|i]] Hi; auto; [|cbn in Hi; lia]. eapply held_2poses2d'; [right; right; left; reflexivity|apply (id_positive 3)|exact H1]. }
  exists [1%nat], [C2Poses2d (mkV3 1 0 (- (PI / 2))) 0 1 id3 false]. split; [|split].
  - intros i. split. { intros [<-|[]]. eexists. reflexivity. } intros [v H]. destruct i as [|[|i]]; cbn in H; [discriminate|left; reflexivity|destruct i; discriminate].
  - apply (grown_next _ _ 0%nat); [right; split; [reflexivity|left; reflexivity]|intros [H|[]]; discriminate|constructor].
  - intros c. split. { intros [<-|[]]. split; [right; right; left; reflexivity|unfold call_factor; cbn; discriminate]. } intros [[<-|[<-|[<-|[]]]] N]; try (cbn in N; congruence). left; reflexivity.
Qed.
Theorem C86_one_step_refuted : exists cs, typed [] cs /\ Forall call_info cs /\ Forall solid_call cs /\ (forall i, (i < length (nodes_of cs))%nat -> held cs i) /\ tree cs /\
  forall lin rob, exact lin -> rob <> RANSAC -> exists s t, pycalls lin rob (solver_new world_new) cs = Some s /\ solve lin GN 1 0 0 s = Some t /\ chi2_of (s_w t) = ((PI / 2 - 1) * (PI / 2 - 1) + 1) / 2.
Proof.
  exists facing. destruct facing_ok as (T & P & So & Hd & Tr). do 5 (split; auto). intros lin rob X NR. destruct (session_inv lin rob facing T) as (s & E & V & Fi).
  assert (S0 : state_of (s_w s) 0 = P2 (mkV3 0 0 0) /\ state_of (s_w s) 1 = P2 (mkV3 1 0 0)) by (clear - E; unfold facing in E; cbv -[id3 IZR lvec res_2poses2d jac_2poses2d l3 lmat PI Rdiv Ropp] in E; injection E as <-; split; reflexivity). destruct S0 as [S0 S1].
  destruct (solve_total lin GN 1 0 0 s (gd_wf _ (iv_good _ _ _ V))) as [t Et]. exists s, t. do 2 (split; auto). assert (Pp := PI_RGT_0).
  assert (W1 : wrap_angle (0 - 0 - - (PI / 2)) = PI / 2) by (replace (0 - 0 - - (PI / 2)) with (PI / 2) by ring; apply wrap_angle_id; lra).
  set (D := fun i k : nat => match i with 0%nat => v3fun 0 (PI / 2) (- (PI / 2)) k | _ => 0 end).
  assert (On : one_step 0 (s_w s)) by (apply (held_one rob facing); auto).
  assert (Lz : forall c, In c facing -> lin_zero (state_of (s_w s)) D c).
  { intros c [<-|[<-|[<-|[]]]]; try exact I. unfold lin_zero, call_factor. cbn [pycall_op Nat.ltb Nat.leb]. destruct (jd_rel (state_of (s_w s)) (mkV3 1 0 (- (PI / 2))) (target_pos false false) D 0 1 _ _ S0 S1) as (J0 & J1 & J2). cbn [map]. rewrite S0, S1. cbn [fc_dim fc_res c_2poses2d].
    unfold res_2poses2d; cbv zeta; unfold wrap3, v3sub; cbn [vx vy vz] in *. rewrite cos_0, sin_0 in *. rewrite W1. intros [|[|[|i]]] Hi; [rewrite J0|rewrite J1|rewrite J2|lia]; unfold D; cbn; ring. }
  destruct (lin_step lin rob facing 1 0 0 s t D X P NR V On) with (i := 0%nat) (m := STANDARD) (v := P2 (mkV3 0 0 0)) as [_ St0]; auto. { intros [|[|i]] v k H; cbn in H; try discriminate; [reflexivity|destruct i; discriminate]. }
  destruct (lin_step lin rob facing 1 0 0 s t D X P NR V On) with (i := 1%nat) (m := ANCHOR) (v := P2 (mkV3 1 0 0)) as [St1 _]; auto. { intros [|[|i]] v k H; cbn in H; try discriminate; [reflexivity|destruct i; discriminate]. }
  specialize (St0 ltac:(discriminate)). specialize (St1 eq_refl). rewrite S0 in St0. rewrite S1 in St1. cbn [val_update] in St0. unfold wrap3, v3add, dx3, D in St0. cbn [vx vy vz v3fun] in St0. rewrite wrap_angle_id in St0 by lra.
  destruct (solve_frame lin GN 1 0 0 s t Et) as (Sk & _ & Kk). pose proof (inv_skel rob _ _ _ V Sk Kk) as Vt. rewrite (tracks_chi2 _ _ _ (iv_tracks _ _ _ Vt)). unfold facing. repeat rewrite lsum_cons. rewrite lsum_nil. unfold call_chi2, call_factor. cbn [pycall_op Nat.ltb Nat.leb map]. rewrite St0, St1. cbn [fc_dim fc_res c_2poses2d].
  unfold res_2poses2d; cbv zeta; unfold wrap3, v3sub; cbn [vx vy vz]. replace (0 + - - (PI / 2)) with (PI / 2) by ring. rewrite cos_PI2, sin_PI2. rewrite (wrap_angle_id (0 - PI / 2 - - (PI / 2))) by lra. unfold quad, id3, l3, lvec. cbn. field.
Qed.
Print Assumptions C86_one_step_refuted.

(** *** Example: from an anchor by a relative pose, then odometry, then a relative
    pose back from a pose with a larger id; all values arbitrary *)
Definition chain (x1 x2 x3 a b c : V3) : list pycall :=
  [CNode ANCHOR (P2 (mkV3 0 0 0)); CNode STANDARD (P2 x1); CNode STANDARD (P2 x2); CNode STANDARD (P2 x3); C2Poses2d c 3 1 id3 false; C2Poses2d a 0 1 id3 true; COdom2d b 1 2 id3].
Lemma chain_ok x1 x2 x3 a b c : let cs := chain x1 x2 x3 a b c in typed [] cs /\ Forall call_info cs /\ Forall solid_call cs /\ (forall i, (i < length (nodes_of cs))%nat -> held cs i) /\ tree cs.
Proof.
  intros cs. split. { cbn. repeat split; auto; discriminate. } split. { repeat (apply Forall_cons; [first [exact I|exact (id3_proper 3)]|]). apply Forall_nil. } split. { repeat (apply Forall_cons; [exact I|]). apply Forall_nil. }
  split. { assert (H0 : held cs 0) by (eapply held_anchor; reflexivity). assert (H1 : held cs 1) by (eapply held_2poses2d; [do 5 right; left; reflexivity|apply (id_positive 3)|exact H0]).
    intros [|[|[|[|i]]]] Hi; auto; [eapply held_odom; [do 6 right; left; reflexivity|apply (id_positive 3)|exact H1]|eapply held_2poses2d'; [do 4 right; left; reflexivity|apply (id_positive 3)|exact H1]|cbn in Hi; lia]. }
  exists [0%nat], [C2Poses2d a 0 1 id3 true; COdom2d b 1 2 id3; C2Poses2d c 3 1 id3 false]. split; [|split].
  - intros i. split. { intros [<-|[]]. eexists. reflexivity. } intros [v H]. destruct i as [|[|[|[|i]]]]; cbn in H; try discriminate; [left; reflexivity|destruct i; discriminate].
  - apply (grown_next _ _ 1%nat); [left; cbn; auto|cbn; intuition discriminate|]. apply (grown_next _ _ 2%nat); [left; cbn; auto|cbn; intuition discriminate|]. apply (grown_next _ _ 3%nat); [right; cbn; auto|cbn; intuition discriminate|constructor].
  - intros f. split. { intros [<-|[<-|[<-|[]]]]; (split; [cbn; auto 10|unfold call_factor; cbn; discriminate]). } intros [H N]. cbn in H. destruct H as [<-|[<-|[<-|[<-|[<-|[<-|[<-|[]]]]]]]]; try (cbn in N; congruence); cbn; auto.
Qed.
Example C86_ex_tree : forall x1 x2 x3 a b c, exists s t t', pycalls gauss HUBER (solver_new world_new) (chain x1 x2 x3 a b c) = Some s /\ solve gauss GN 1 0 0 s = Some t /\ solve gauss GN 1 0 0 t = Some t' /\ chi2_of (s_w t') = 0.
Proof.
  intros x1 x2 x3 a b c. destruct (chain_ok x1 x2 x3 a b c) as (T & P & So & Hd & Tr). destruct (session_inv gauss HUBER _ T) as (s & E & _). destruct (C86_tree gauss HUBER _ 1 1 0 0 0 0 s gauss_exact ltac:(discriminate) T P So Hd Tr E) as (t & t' & Et & Et' & _ & _ & C & _). exists s, t, t'. auto.
Qed.
Example C86_ex_headings : exists s t, pycalls gauss QUADRATIC (solver_new world_new) (chain (mkV3 5 6 0) (mkV3 7 8 0) (mkV3 9 1 0) (mkV3 1 2 0) (mkV3 0 4 0) (mkV3 1 1 0)) = Some s /\ solve gauss GN 1 0 0 s = Some t /\ chi2_of (s_w t) = 0.
Proof.
  destruct (chain_ok (mkV3 5 6 0) (mkV3 7 8 0) (mkV3 9 1 0) (mkV3 1 2 0) (mkV3 0 4 0) (mkV3 1 1 0)) as (T & P & So & Hd & Tr). destruct (session_inv gauss QUADRATIC _ T) as (s & E & V & _).
  destruct (C86_headings gauss QUADRATIC _ 1 0 0 s gauss_exact ltac:(discriminate) T P So Hd Tr E) as (t & Et & _ & C); [|exists s, t; auto].
  assert (W0 : wrap_angle 0 = 0) by (apply wrap_angle_id; pose proof PI_RGT_0; lra).
  assert (Hz : forall i, (i < 4)%nat -> exists x, state_of (s_w s) i = P2 x /\ vz x = 0).
  { clear - E W0. unfold chain in E. cbv -[id3 IZR wrap_angle Rplus Rminus Ropp Rmult cos sin res_2poses2d jac_2poses2d res_odom jac_odom] in E. injection E as <-. intros [|[|[|[|i]]]] Hi; [| | | |lia]; eexists; (split; [reflexivity|]); cbn; auto;
    match goal with |- wrap_angle ?a = 0 => replace a with 0; [exact W0|] end; rewrite ?Rplus_0_l; repeat match goal with |- context [wrap_angle ?a] => replace (wrap_angle a) with 0 by (symmetry; transitivity (wrap_angle 0); [f_equal; ring|exact W0]) end; ring. }
  destruct (Hz 0%nat) as (y0 & S0 & Z0); [lia|]. destruct (Hz 1%nat) as (y1 & S1 & Z1); [lia|]. destruct (Hz 2%nat) as (y2 & S2 & Z2); [lia|]. destruct (Hz 3%nat) as (y3 & S3 & Z3); [lia|].
  intros c [<-|[<-|[<-|[<-|[<-|[<-|[<-|[]]]]]]]]; try exact I; unfold call_factor; cbn [pycall_op Nat.ltb Nat.leb map]; rewrite ?S0, ?S1, ?S2, ?S3; cbn; rewrite ?Z0, ?Z1, ?Z2, ?Z3; match goal with |- wrap_angle ?a = 0 => replace a with 0 by ring; exact W0 end.
Qed.
