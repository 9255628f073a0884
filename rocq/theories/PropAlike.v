(** C101: the uncertainty of the same graph, built in another order. *)
Require Import Reals List Arith Lia Lra Bool Permutation.
From Verif Require Import Lin LinFacts SpecGeom Nodes NodesProofs Robust Graph GraphProofs Sums Solve SpecSolve SolveFrame SolveSums SolveBuild SolveProofs Session SessionProofs.
From Verif Require Import Factors SpecFactors FactorsSession FrameSolve SpecFrame SpecSolvable SolvableSession SpecMapping MappingSession SpecReorder Reorder ReorderSolve PropSolvable PropReorder SpecChain Chain Grow Gauss SpecPin PropPin Alike.
Import ListNotations.
Local Open Scope R_scope.

Lemma alike : forall lin lin' rob p cs cs' s s', rob <> RANSAC -> typed [] cs -> typed [] cs' -> Forall call_info cs -> Forall call_info cs' ->
  renumbered p cs cs' -> Forall (order_kept p) cs -> equal_costs rob (map (rename p) (flat_map measured cs)) (flat_map measured cs') ->
  pycalls lin rob (solver_new world_new) cs = Some s -> pycalls lin' rob (solver_new world_new) cs' = Some s' ->
  (forall i, (i < length (nodes_of cs))%nat -> state_of (s_w s') (p i) = state_of (s_w s) i) ->
  exists b b', build_problem false s = Some b /\ build_problem false s' = Some b' /\ let n := g_stateDim (w_graph (s_w s)) in let n' := g_stateDim (w_graph (s_w s')) in
  (nonsingular n (s_L b) <-> nonsingular n' (s_L b')) /\
  forall C C', inverse_of n (s_L b) C -> inverse_of n' (s_L b') C' -> forall g g' h h' v v' u u', combination (s_w s) g v -> combination (s_w s') g' v' -> combination (s_w s) h u -> combination (s_w s') h' u' ->
  (forall i k, (i < length (nodes_of cs))%nat -> g' (p i) k = g i k) -> (forall i k, (i < length (nodes_of cs))%nat -> h' (p i) k = h i k) -> quad n' C' v' u' = quad n C v u.
Proof.
  intros lin lin' rob p cs cs' s s' NR T T' P P' Rn O EC E E' St. destruct (build_forms lin rob cs s T P NR E) as (b & Eb & V & _ & _ & F & Sy & Ps). destruct (build_forms lin' rob cs' s' T' P' NR E') as (b' & Eb' & V' & _ & _ & F' & Sy' & Ps').
  destruct (renumbered_pd rob p cs cs' _ _ Rn V V' St) as [q H]. pose proof (renamed_cost rob p cs cs' _ V O EC) as SC. exists b, b'. split; auto. split; auto. split.
  - apply (determined_rel rob cs cs' p q s s' b b' NR P P' SC H F F' Sy Ps Sy' Ps').
  - intros C C' I I' g g' h h' v v' u u' K K' Kh Kh' Gg Gh. apply (covariance_rel rob cs cs' p q s s' b b' NR P P' SC H F F' C C'); auto.
    + apply (inverse_nonsingular _ (s_L b') C'); auto.
    + apply (combination_rel rob cs cs' p q s s' H g g'); auto.
    + apply (combination_rel rob cs cs' p q s s' H h h'); auto.
Qed.

(** *** The covariance of two combinations of the states does not depend on the order in
    which the nodes and the measurements were added *)
Theorem C101_order : forall lin lin' rob p cs cs' s s', rob <> RANSAC -> typed [] cs -> typed [] cs' -> Forall call_info cs -> Forall call_info cs' ->
  renumbered p cs cs' -> Forall (order_kept p) cs -> Permutation (map (rename p) (flat_map measured cs)) (flat_map measured cs') ->
  pycalls lin rob (solver_new world_new) cs = Some s -> pycalls lin' rob (solver_new world_new) cs' = Some s' ->
  (forall i, (i < length (nodes_of cs))%nat -> state_of (s_w s') (p i) = state_of (s_w s) i) ->
  exists b b', build_problem false s = Some b /\ build_problem false s' = Some b' /\ let n := g_stateDim (w_graph (s_w s)) in let n' := g_stateDim (w_graph (s_w s')) in
  (nonsingular n (s_L b) <-> nonsingular n' (s_L b')) /\
  forall C C', inverse_of n (s_L b) C -> inverse_of n' (s_L b') C' -> forall g g' h h' v v' u u', combination (s_w s) g v -> combination (s_w s') g' v' -> combination (s_w s) h u -> combination (s_w s') h' u' ->
  (forall i k, (i < length (nodes_of cs))%nat -> g' (p i) k = g i k) -> (forall i k, (i < length (nodes_of cs))%nat -> h' (p i) k = h i k) -> quad n' C' v' u' = quad n C v u.
Proof. intros lin lin' rob p cs cs' s s' NR T T' P P' Rn O Pe. apply (alike lin lin'); auto. apply perm_costs, Pe. Qed.
Print Assumptions C101_order.

(** *** ... nor, with the quadratic cost, on whether a measurement was added in shares *)
Theorem C101_shares : forall lin lin' p cs cs' s s', typed [] cs -> typed [] cs' -> Forall call_info cs -> Forall call_info cs' ->
  renumbered p cs cs' -> Forall (order_kept p) cs -> regrouped (map (rename p) (flat_map measured cs)) (flat_map measured cs') ->
  pycalls lin QUADRATIC (solver_new world_new) cs = Some s -> pycalls lin' QUADRATIC (solver_new world_new) cs' = Some s' ->
  (forall i, (i < length (nodes_of cs))%nat -> state_of (s_w s') (p i) = state_of (s_w s) i) ->
  exists b b', build_problem false s = Some b /\ build_problem false s' = Some b' /\ let n := g_stateDim (w_graph (s_w s)) in let n' := g_stateDim (w_graph (s_w s')) in
  (nonsingular n (s_L b) <-> nonsingular n' (s_L b')) /\
  forall C C', inverse_of n (s_L b) C -> inverse_of n' (s_L b') C' -> forall g g' h h' v v' u u', combination (s_w s) g v -> combination (s_w s') g' v' -> combination (s_w s) h u -> combination (s_w s') h' u' ->
  (forall i k, (i < length (nodes_of cs))%nat -> g' (p i) k = g i k) -> (forall i k, (i < length (nodes_of cs))%nat -> h' (p i) k = h i k) -> quad n' C' v' u' = quad n C v u.
Proof. intros lin lin' p cs cs' s s' T T' P P' Rn O Pe. apply (alike lin lin'); auto; [discriminate|apply regrouped_costs, Pe]. Qed.
Print Assumptions C101_shares.

(** two poses and a landmark, made in two orders *)
Example C101_ex_order : exists s s' b b' C C', pycalls gauss HUBER (solver_new world_new) first_calls = Some s /\ pycalls gauss HUBER (solver_new world_new) second_calls = Some s' /\
  build_problem false s = Some b /\ build_problem false s' = Some b' /\ let n := g_stateDim (w_graph (s_w s)) in let n' := g_stateDim (w_graph (s_w s')) in inverse_of n (s_L b) C /\ inverse_of n' (s_L b') C' /\
  forall g g', (forall i k, (i < 3)%nat -> g' (turn_ids i) k = g i k) -> exists v v', combination (s_w s) g v /\ combination (s_w s') g' v' /\ quad n' C' v' v' = quad n C v v.
Proof.
  destruct first_ok as (T & P & O & So & Hd). destruct first_run as (s & E & S). destruct second_run as (s' & E' & S').
  destruct (C101_order gauss gauss HUBER turn_ids first_calls second_calls s s') as (b & b' & Eb & Eb' & D & Q); auto.
  - discriminate.
  - cbn. repeat split; auto; discriminate.
  - infos.
  - apply turned_ids. reflexivity.
  - apply perm_swap.
  - apply at_turned; auto.
  - destruct (C80_held gauss HUBER first_calls ltac:(discriminate) T So P Hd) as (s0 & b0 & E0 & Eb0 & NS). rewrite E in E0. injection E0 as <-. rewrite Eb in Eb0. injection Eb0 as <-.
    destruct (inverse_exists _ _ NS) as [C IC]. destruct (inverse_exists _ _ (proj1 D NS)) as [C' IC']. exists s, s', b, b', C, C'. repeat (split; [assumption|]). intros g g' Gg. do 2 eexists.
    split; [apply combination_exists|]. split; [apply combination_exists|]. eapply (Q C C' IC IC' g g' g g'); try apply combination_exists; exact Gg.
Qed.
(** ... and with the observation of the landmark in two shares *)
Example C101_ex_shares : exists s s' b b' C C', pycalls gauss QUADRATIC (solver_new world_new) first_calls = Some s /\ pycalls gauss QUADRATIC (solver_new world_new) (third half) = Some s' /\
  build_problem false s = Some b /\ build_problem false s' = Some b' /\ let n := g_stateDim (w_graph (s_w s)) in let n' := g_stateDim (w_graph (s_w s')) in inverse_of n (s_L b) C /\ inverse_of n' (s_L b') C' /\
  forall g g', (forall i k, (i < 3)%nat -> g' (turn_ids i) k = g i k) -> exists v v', combination (s_w s) g v /\ combination (s_w s') g' v' /\ quad n' C' v' v' = quad n C v v.
Proof.
  destruct first_ok as (T & P & O & So & Hd). destruct first_run' as (s & E & S). destruct third_run as (s' & E' & S').
  destruct (C101_shares gauss gauss turn_ids first_calls (third half) s s') as (b & b' & Eb & Eb' & D & Q); auto.
  - cbn. repeat split; auto; discriminate.
  - infos.
  - apply turned_ids. reflexivity.
  - cbn. eapply rg_trans; [apply rg_order, perm_swap|]. eapply rg_trans; [apply (rg_shares _ half half); intros i j; cbn [info_of]; unfold half; field|]. apply rg_order. cbn. apply perm_skip, perm_swap.
  - apply at_turned; auto.
  - destruct (C80_held gauss QUADRATIC first_calls ltac:(discriminate) T So P Hd) as (s0 & b0 & E0 & Eb0 & NS). rewrite E in E0. injection E0 as <-. rewrite Eb in Eb0. injection Eb0 as <-.
    destruct (inverse_exists _ _ NS) as [C IC]. destruct (inverse_exists _ _ (proj1 D NS)) as [C' IC']. exists s, s', b, b', C, C'. repeat (split; [assumption|]). intros g g' Gg. do 2 eexists.
    split; [apply combination_exists|]. split; [apply combination_exists|]. eapply (Q C C' IC IC' g g' g g'); try apply combination_exists; exact Gg.
Qed.
