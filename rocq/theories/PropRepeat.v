(** C105: every measurement several times. *)
Require Import Reals List Arith Lia Lra Bool Permutation.
From Verif Require Import Lin LinFacts SpecGeom Nodes NodesProofs Robust Graph GraphProofs Sums Solve SpecSolve SolveFrame SolveSums SolveBuild SolveProofs Session SessionProofs.
From Verif Require Import Factors SpecFactors FactorsSession FrameSolve SpecFrame PropFrame SpecSolvable SolvableSession SpecMapping MappingSession PropMapping SpecReorder Reorder ReorderSolve PropSolvable PropReorder SpecFixed Fixed SpecTree Tree PropParts SpecChain Chain Grow Gauss SpecInfos Infos PropInfos SpecPin PropPin Alike Scaled.
Import ListNotations.
Local Open Scope R_scope.

(** *** With every measurement [m] times, all covariances are divided by [m] *)
Theorem C105_covariance : forall lin lin' rob p m cs cs' s s', rob <> RANSAC -> (0 < m)%nat -> typed [] cs -> typed [] cs' -> Forall call_info cs -> Forall call_info cs' ->
  renumbered p cs cs' -> Forall (order_kept p) cs -> Permutation (concat (repeat (map (rename p) (flat_map measured cs)) m)) (flat_map measured cs') ->
  pycalls lin rob (solver_new world_new) cs = Some s -> pycalls lin' rob (solver_new world_new) cs' = Some s' ->
  (forall i, (i < length (nodes_of cs))%nat -> state_of (s_w s') (p i) = state_of (s_w s) i) ->
  exists b b', build_problem false s = Some b /\ build_problem false s' = Some b' /\ let n := g_stateDim (w_graph (s_w s)) in let n' := g_stateDim (w_graph (s_w s')) in
  (nonsingular n (s_L b) <-> nonsingular n' (s_L b')) /\
  forall C C', inverse_of n (s_L b) C -> inverse_of n' (s_L b') C' -> forall g g' h h' v v' u u', combination (s_w s) g v -> combination (s_w s') g' v' -> combination (s_w s) h u -> combination (s_w s') h' u' ->
  (forall i k, (i < length (nodes_of cs))%nat -> g' (p i) k = g i k) -> (forall i k, (i < length (nodes_of cs))%nat -> h' (p i) k = h i k) -> quad n' C' v' u' = quad n C v u / INR m.
Proof.
  intros lin lin' rob p m cs cs' s s' NR Hm T T' P P' Rn O Pe E E' St. destruct (build_forms lin rob cs s T P NR E) as (b & Eb & V & _ & _ & F & Sy & Ps). destruct (build_forms lin' rob cs' s' T' P' NR E') as (b' & Eb' & V' & _ & _ & F' & Sy' & Ps').
  destruct (renumbered_pd rob p cs cs' _ _ Rn V V' St) as [q H]. exists b, b'. split; [exact Eb|]. split; [exact Eb'|]. clear E E' Eb Eb'. assert (Ha : 0 < INR m) by (apply lt_0_INR, Hm).
  assert (Sc : forall x x' y y', rel cs p (s_w s) (s_w s') x x' -> rel cs p (s_w s) (s_w s') y y' -> form (g_stateDim (w_graph (s_w s'))) (s_L b') x' y' = INR m * form (g_stateDim (w_graph (s_w s))) (s_L b) x y).
  { intros x x' y y' Rx Ry. rewrite F, F'. apply (copies_form rob p m cs cs'); auto. }
  split.
  - apply (scaled_determined rob cs cs' p q s s' b b' (INR m) Ha H Sc Sy Ps Sy' Ps').
  - intros C C' I I' g g' h h' v v' u u' K K' Kh Kh' Gg Gh. apply (scaled_covariance rob cs cs' p q s s' b b' (INR m) Ha H Sc Sy C C' v v' u u' I I').
    + apply (combination_rel rob cs cs' p q s s' H g g'); auto.
    + apply (combination_rel rob cs cs' p q s s' H h h'); auto.
Qed.
Print Assumptions C105_covariance.
(** *** chi2 is [m] times as large, and Gauss-Newton makes the same step *)
Theorem C105_solve : forall lin rob p m cs cs' k lambda tol s s', exact lin -> rob <> RANSAC -> (0 < m)%nat -> typed [] cs -> typed [] cs' -> Forall call_info cs -> Forall call_info cs' -> Forall solid_call cs -> (forall i, (i < length (nodes_of cs))%nat -> held cs i) ->
  renumbered p cs cs' -> Forall (order_kept p) cs -> Permutation (concat (repeat (map (rename p) (flat_map measured cs)) m)) (flat_map measured cs') ->
  pycalls lin rob (solver_new world_new) cs = Some s -> pycalls lin rob (solver_new world_new) cs' = Some s' ->
  (forall i, (i < length (nodes_of cs))%nat -> state_of (s_w s') (p i) = state_of (s_w s) i) ->
  chi2_of (s_w s') = INR m * chi2_of (s_w s) /\ exists t t', solve lin GN k lambda tol s = Some t /\ solve lin GN k lambda tol s' = Some t' /\
  (forall i, (i < length (nodes_of cs))%nat -> state_of (s_w t') (p i) = state_of (s_w t) i) /\ chi2_of (s_w t') = INR m * chi2_of (s_w t).
Proof.
  intros lin rob p m cs cs' k la tol s s' X NR Hm T T' P P' So Hd Rn O Pe E E' St. destruct (session_inv lin rob cs T) as (s0 & E0 & V & Fi). rewrite E in E0. injection E0 as <-. destruct (session_inv lin rob cs' T') as (s0 & E0 & V' & _). rewrite E' in E0. injection E0 as <-. clear E E'.
  split; [apply (copies_chi2 rob p m cs cs'); auto|]. destruct (solve_total lin GN k la tol s (gd_wf _ (iv_good _ _ _ V))) as [t Et]. destruct (solve_total lin GN k la tol s' (gd_wf _ (iv_good _ _ _ V'))) as [t' Et']. exists t, t'. split; [exact Et|]. split; [exact Et'|].
  destruct (renumbered_pd rob p cs cs' _ _ Rn V V' St) as [q H].
  assert (R : forall i, (i < length (nodes_of cs))%nat -> state_of (s_w t') (p i) = state_of (s_w t) i) by (apply (copies_solved lin rob p q m cs cs' k la tol s s' t t'); auto; apply (held_one rob cs); auto).
  split; [exact R|]. destruct (solve_frame _ _ _ _ _ _ _ Et) as (K & _ & KK). destruct (solve_frame _ _ _ _ _ _ _ Et') as (K' & _ & KK'). apply (copies_chi2 rob p m cs cs'); auto; eapply inv_skel; eauto.
Qed.
Print Assumptions C105_solve.

(** a landmark seen once, and seen three times with the same outcome *)
Definition thrice_calls : list pycall := seen_calls ++ [CLandmark2d 3 1 0 1 id3 false; CLandmark2d 3 1 0 1 id3 false].
Lemma thrice_run lin rob : exists s, pycalls lin rob (solver_new world_new) thrice_calls = Some s /\ forall i, (i < 2)%nat -> state_of (s_w s) i = nth i [P2 (mkV3 0 0 0); L2 2 1] (P2 v3zero).
Proof. ran. Qed.
Lemma thrice_ok : typed [] thrice_calls /\ Forall call_info thrice_calls /\ renumbered (fun i => i) seen_calls thrice_calls /\ Forall (order_kept (fun i => i)) seen_calls /\ Permutation (concat (repeat (map (rename (fun i => i)) (flat_map measured seen_calls)) 3)) (flat_map measured thrice_calls).
Proof.
  split; [cbn; repeat split; auto; discriminate|]. split; [repeat (apply Forall_cons; [first [exact I | exact (id3_proper _)]|]); apply Forall_nil|]. split; [constructor; [reflexivity|intros i mo v Ei; exists v; exact Ei|auto]|].
  split; [repeat (apply Forall_cons; [first [exact I | cbn; lia]|]); apply Forall_nil|]. cbn. apply Permutation_refl.
Qed.
Example C105_ex : forall rob, rob <> RANSAC -> exists s s' b b' C C', pycalls gauss rob (solver_new world_new) seen_calls = Some s /\ pycalls gauss rob (solver_new world_new) thrice_calls = Some s' /\ build_problem false s = Some b /\ build_problem false s' = Some b' /\
  let n := g_stateDim (w_graph (s_w s)) in let n' := g_stateDim (w_graph (s_w s')) in inverse_of n (s_L b) C /\ inverse_of n' (s_L b') C' /\
  (forall g, exists v v', combination (s_w s) g v /\ combination (s_w s') g v' /\ quad n' C' v' v' = quad n C v v / INR 3) /\
  exists t t', solve gauss GN 1 0 0 s = Some t /\ solve gauss GN 1 0 0 s' = Some t' /\ state_of (s_w t') 1 = state_of (s_w t) 1 /\ chi2_of (s_w t') = INR 3 * chi2_of (s_w t).
Proof.
  intros rob NR. destruct seen_ok as (T & P & So & Hd). destruct thrice_ok as (T' & P' & Rn & O & Pe). destruct (seen_run gauss rob) as (s & E & S0). destruct (thrice_run gauss rob) as (s' & E' & S0').
  assert (St : forall i, (i < length (nodes_of seen_calls))%nat -> state_of (s_w s') i = state_of (s_w s) i) by (clear - S0 S0'; intros i Hi; rewrite S0, S0' by exact Hi; reflexivity). assert (L3 : (0 < 3)%nat) by lia.
  destruct (C105_covariance gauss gauss rob (fun i => i) 3 seen_calls thrice_calls s s' NR L3 T T' P P' Rn O Pe E E' St) as (b & b' & Eb & Eb' & D & Q).
  destruct (C105_solve gauss rob (fun i => i) 3 seen_calls thrice_calls 1 0 0 s s' gauss_exact NR L3 T T' P P' So Hd Rn O Pe E E' St) as (_ & t & t' & Et & Et' & R & Ch).
  destruct (C80_held gauss rob seen_calls NR T So P Hd) as (s0 & b0 & E0 & Eb0 & NS). rewrite E in E0. injection E0 as <-. rewrite Eb in Eb0. injection Eb0 as <-.
  destruct (inverse_exists _ _ NS) as [C IC]. destruct (inverse_exists _ _ (proj1 D NS)) as [C' IC']. exists s, s', b, b', C, C'. split; [exact E|]. split; [exact E'|]. split; [exact Eb|]. split; [exact Eb'|]. split; [exact IC|]. split; [exact IC'|]. split.
  - clear - Q IC IC'. intros g. pose proof (combination_exists (s_w s) g) as K. pose proof (combination_exists (s_w s') g) as K'. do 2 eexists. split; [exact K|]. split; [exact K'|]. apply (Q C C' IC IC' g g g g _ _ _ _ K K' K K'); reflexivity.
  - exists t, t'. split; [exact Et|]. split; [exact Et'|]. split; [|exact Ch]. apply (R 1%nat). cbn. lia.
Qed.
