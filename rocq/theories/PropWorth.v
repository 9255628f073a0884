(** C103: what informations mean for the uncertainty. *)
Require Import Reals List Arith Lia Lra Bool Permutation.
From Verif Require Import Lin LinFacts SpecGeom Nodes NodesProofs Robust Graph GraphProofs Sums Solve SpecSolve SolveFrame SolveSums SolveBuild SolveProofs Session SessionProofs.
From Verif Require Import Factors SpecFactors FactorsSession FrameSolve SpecFrame PropFrame SpecSolvable SolvableSession SpecMapping MappingSession SpecReorder Reorder ReorderSolve PropSolvable PropReorder SpecChain Chain Grow Gauss SpecInfos Infos PropInfos SpecPin PropPin Alike PropAlike.
Import ListNotations.
Local Open Scope R_scope.

(** *** Measurements without information leave the uncertainty as it is *)
Theorem C103_ignored : forall lin lin' rob p cs cs' others s s', rob <> RANSAC -> typed [] cs -> typed [] cs' -> Forall call_info cs -> Forall call_info cs' ->
  renumbered p cs cs' -> Forall (order_kept p) cs -> Forall uninformed others -> Permutation (map (rename p) (flat_map measured cs) ++ others) (flat_map measured cs') ->
  pycalls lin rob (solver_new world_new) cs = Some s -> pycalls lin' rob (solver_new world_new) cs' = Some s' ->
  (forall i, (i < length (nodes_of cs))%nat -> state_of (s_w s') (p i) = state_of (s_w s) i) ->
  exists b b', build_problem false s = Some b /\ build_problem false s' = Some b' /\ let n := g_stateDim (w_graph (s_w s)) in let n' := g_stateDim (w_graph (s_w s')) in
  (nonsingular n (s_L b) <-> nonsingular n' (s_L b')) /\
  forall C C', inverse_of n (s_L b) C -> inverse_of n' (s_L b') C' -> forall g g' h h' v v' u u', combination (s_w s) g v -> combination (s_w s') g' v' -> combination (s_w s) h u -> combination (s_w s') h' u' ->
  (forall i k, (i < length (nodes_of cs))%nat -> g' (p i) k = g i k) -> (forall i k, (i < length (nodes_of cs))%nat -> h' (p i) k = h i k) -> quad n' C' v' u' = quad n C v u.
Proof. intros lin lin' rob p cs cs' o s s' NR T T' P P' Rn O U Pe. apply (alike lin lin'); auto. apply (ignored_costs rob _ _ o U Pe). Qed.
Print Assumptions C103_ignored.

Lemma rescale_renumbered a cs : renumbered (fun i => i) cs (map (rescale a) cs).
Proof. constructor; rewrite ?rescale_nodes; auto. intros i m v E. exists v. exact E. Qed.
Lemma unit_rows n L x y : (forall z, form n L z x = dot n z y) -> forall i, (i < n)%nat -> sumn n (fun j => L i j * x j) = y i.
Proof. intros F i Hi. specialize (F (FrameSolve.unit i)). rewrite form_rows, !FrameSolve.dot_unit in F by auto. exact F. Qed.
(** *** Without a robust function, all informations times [a] give all covariances
    divided by [a] *)
Theorem C103_scale : forall lin lin' a cs s s', 0 < a -> typed [] cs -> Forall call_info cs ->
  pycalls lin QUADRATIC (solver_new world_new) cs = Some s -> pycalls lin' QUADRATIC (solver_new world_new) (map (rescale a) cs) = Some s' ->
  (forall i, (i < length (nodes_of cs))%nat -> state_of (s_w s') i = state_of (s_w s) i) ->
  exists b b', build_problem false s = Some b /\ build_problem false s' = Some b' /\ let n := g_stateDim (w_graph (s_w s)) in let n' := g_stateDim (w_graph (s_w s')) in
  (nonsingular n (s_L b) <-> nonsingular n' (s_L b')) /\
  forall C C', inverse_of n (s_L b) C -> inverse_of n' (s_L b') C' -> forall g h v v' u u', combination (s_w s) g v -> combination (s_w s') g v' -> combination (s_w s) h u -> combination (s_w s') h u' ->
  quad n' C' v' u' = quad n C v u / a.
Proof.
  intros lin lin' a cs s s' Ha T P E E' St. pose proof (rescale_typed a cs [] T) as T'. assert (P' : Forall call_info (map (rescale a) cs)) by (apply rescale_info; [lra|exact P]). assert (NR : QUADRATIC <> RANSAC) by discriminate.
  destruct (build_forms lin QUADRATIC cs s T P NR E) as (b & Eb & V & _ & _ & F & Sy & Ps). destruct (build_forms lin' QUADRATIC _ s' T' P' NR E') as (b' & Eb' & V' & _ & _ & F' & Sy' & Ps').
  destruct (renumbered_pd QUADRATIC (fun i => i) cs (map (rescale a) cs) _ _ (rescale_renumbered a cs) V V' St) as [q H]. exists b, b'. split; auto. split; auto. cbv zeta. clear E E' Eb Eb'.
  set (n := g_stateDim (w_graph (s_w s))) in *. set (n' := g_stateDim (w_graph (s_w s'))) in *.
  assert (Sc : forall x x' y y', rel cs (fun i => i) (s_w s) (s_w s') x x' -> rel cs (fun i => i) (s_w s) (s_w s') y y' -> form n' (s_L b') x' y' = a * form n (s_L b) x y).
  { intros x x' y y' Rx Ry. rewrite F, F'. apply (scaled_form a cs); auto. }
  assert (Dt : forall x x' y y', rel cs (fun i => i) (s_w s) (s_w s') x x' -> rel cs (fun i => i) (s_w s) (s_w s') y y' -> dot n' x' y' = dot n x y) by (intros; eapply rel_dot; eauto).
  assert (To : forall x, exists x', rel cs (fun i => i) (s_w s) (s_w s') x x') by (intros x; eexists; eapply (rel_to QUADRATIC cs (map (rescale a) cs)); exact H).
  assert (Fr : forall x', exists x, rel cs (fun i => i) (s_w s) (s_w s') x x') by (intros x'; eexists; eapply (rel_from QUADRATIC cs (map (rescale a) cs)); exact H).
  split; [split; intros NS|].
  - intros x' Z. destruct (Fr x') as [x Rx]. pose proof (kernel_form n' (s_L b') x' Z) as Z'. rewrite (Sc x x' x x' Rx Rx) in Z'. assert (Zf : form n (s_L b) x x = 0) by nra. pose proof (NS x (form_kernel n (s_L b) x Sy Ps Zf)) as Zx.
    apply dot_zero. rewrite (Dt x x' x x' Rx Rx). unfold dot. apply sumn_zero. intros i Hi. rewrite (Zx i Hi). ring.
  - intros x Z. destruct (To x) as [x' Rx]. pose proof (kernel_form n (s_L b) x Z) as Z'. assert (Zf : form n' (s_L b') x' x' = 0) by (rewrite (Sc x x' x x' Rx Rx), Z'; ring). pose proof (NS x' (form_kernel n' (s_L b') x' Sy' Ps' Zf)) as Zx.
    apply dot_zero. rewrite <- (Dt x x' x x' Rx Rx). unfold dot. apply sumn_zero. intros i Hi. rewrite (Zx i Hi). ring.
  - intros C C' I I' g h v v' u u' K K' Kh Kh'. pose proof (inverse_nonsingular n (s_L b) C Sy I) as NS.
    assert (Rv : rel cs (fun i => i) (s_w s) (s_w s') v v') by (apply (combination_rel QUADRATIC cs (map (rescale a) cs) (fun i => i) q s s' H g g); auto).
    assert (Ru : rel cs (fun i => i) (s_w s) (s_w s') u u') by (apply (combination_rel QUADRATIC cs (map (rescale a) cs) (fun i => i) q s s' H h h); auto).
    assert (Qa : forall m A x z, quad m A x z = dot m x (fun i => sumn m (fun j => A i j * z j))) by (intros m A x z; unfold quad, dot; apply sumn_ext; intros i _; rewrite sumn_mult_l; apply sumn_ext; intros; ring).
    rewrite !Qa. set (y := fun i => sumn n (fun j => C i j * u j)). set (y' := fun i => sumn n' (fun j => C' i j * u' j)). destruct (Fr y') as [z Rz].
    assert (Ez : forall i, (i < n)%nat -> a * z i = y i).
    { apply (nonsingular_unique n (s_L b) (fun i => a * z i) y NS). intros i Hi. rewrite (unit_rows n (s_L b) (fun i => a * z i) u); auto; [rewrite (unit_rows n (s_L b) y u); auto; intros x; apply inverse_form, I|].
      intros x. destruct (To x) as [x' Rx]. rewrite <- (Dt x x' u u' Rx Ru), <- (inverse_form n' (s_L b') C' x' u' I'). fold y'. rewrite (Sc x x' z y' Rx Rz). unfold form. rewrite sumn_mult_l. apply sumn_ext. intros r _. rewrite sumn_mult_l. apply sumn_ext. intros; ring. }
    rewrite (Dt v v' z y' Rv Rz). apply (Rmult_eq_reg_l a); [|lra]. transitivity (dot n v y); [|field; lra]. unfold dot. rewrite sumn_mult_l. apply sumn_ext. intros i Hi. rewrite <- (Ez i Hi). ring.
Qed.
Print Assumptions C103_scale.

(** a landmark seen from an anchored pose, and a second sighting without information *)
Example C103_ex_ignored : forall rob, rob <> RANSAC -> exists s s' b b' C C', pycalls gauss rob (solver_new world_new) seen_calls = Some s /\ pycalls gauss rob (solver_new world_new) doubted_calls = Some s' /\
  build_problem false s = Some b /\ build_problem false s' = Some b' /\ let n := g_stateDim (w_graph (s_w s)) in let n' := g_stateDim (w_graph (s_w s')) in inverse_of n (s_L b) C /\ inverse_of n' (s_L b') C' /\
  forall g, exists v v', combination (s_w s) g v /\ combination (s_w s') g v' /\ quad n' C' v' v' = quad n C v v.
Proof.
  intros rob NR. destruct seen_ok as (T & P & So & Hd). destruct (seen_run gauss rob) as (s & E & S0).
  assert (R' : exists s', pycalls gauss rob (solver_new world_new) doubted_calls = Some s' /\ forall i, (i < 2)%nat -> state_of (s_w s') i = nth i [P2 (mkV3 0 0 0); L2 2 1] (P2 v3zero)) by ran. destruct R' as (s' & E' & S0').
  destruct (C103_ignored gauss gauss rob (fun i => i) seen_calls doubted_calls [CLandmark2d 5 2 0 1 none false] s s' NR T) as (b & b' & Eb & Eb' & D & Q); auto.
  - cbn; repeat split; auto; discriminate.
  - repeat (apply Forall_cons; [first [exact I | exact (id3_proper _) | exact (none_proper _)]|]); apply Forall_nil.
  - constructor; [reflexivity|intros i mo v Ei; exists v; exact Ei|auto].
  - repeat (apply Forall_cons; [exact I|]); apply Forall_nil.
  - constructor; [intros i j; reflexivity|constructor].
  - cbn. apply perm_swap.
  - intros i Hi. rewrite S0, S0' by exact Hi. reflexivity.
  - destruct (C80_held gauss rob seen_calls NR T So P Hd) as (s0 & b0 & E0 & Eb0 & NS). rewrite E in E0. injection E0 as <-. rewrite Eb in Eb0. injection Eb0 as <-.
    destruct (inverse_exists _ _ NS) as [C IC]. destruct (inverse_exists _ _ (proj1 D NS)) as [C' IC']. exists s, s', b, b', C, C'. repeat (split; [assumption|]). intros g.
    pose proof (combination_exists (s_w s) g) as K. pose proof (combination_exists (s_w s') g) as K'. do 2 eexists. split; [exact K|]. split; [exact K'|]. apply (Q C C' IC IC' g g g g _ _ _ _ K K' K K'); reflexivity.
Qed.
Example C103_ex_scale : exists s s' b b' C C', pycalls gauss QUADRATIC (solver_new world_new) seen_calls = Some s /\ pycalls gauss QUADRATIC (solver_new world_new) (map (rescale 7) seen_calls) = Some s' /\
  build_problem false s = Some b /\ build_problem false s' = Some b' /\ let n := g_stateDim (w_graph (s_w s)) in let n' := g_stateDim (w_graph (s_w s')) in inverse_of n (s_L b) C /\ inverse_of n' (s_L b') C' /\
  forall g, exists v v', combination (s_w s) g v /\ combination (s_w s') g v' /\ quad n' C' v' v' = quad n C v v / 7.
Proof.
  destruct seen_ok as (T & P & So & Hd). destruct (seen_run gauss QUADRATIC) as (s & E & S0).
  assert (R' : exists s', pycalls gauss QUADRATIC (solver_new world_new) (map (rescale 7) seen_calls) = Some s' /\ forall i, (i < 2)%nat -> state_of (s_w s') i = nth i [P2 (mkV3 0 0 0); L2 2 1] (P2 v3zero)) by ran. destruct R' as (s' & E' & S0').
  destruct (C103_scale gauss gauss 7 seen_calls s s' ltac:(lra) T P E E') as (b & b' & Eb & Eb' & D & Q).
  - intros i Hi. rewrite S0, S0' by exact Hi. reflexivity.
  - destruct (C80_held gauss QUADRATIC seen_calls ltac:(discriminate) T So P Hd) as (s0 & b0 & E0 & Eb0 & NS). rewrite E in E0. injection E0 as <-. rewrite Eb in Eb0. injection Eb0 as <-.
    destruct (inverse_exists _ _ NS) as [C IC]. destruct (inverse_exists _ _ (proj1 D NS)) as [C' IC']. exists s, s', b, b', C, C'. repeat (split; [assumption|]). intros g.
    pose proof (combination_exists (s_w s) g) as K. pose proof (combination_exists (s_w s') g) as K'. do 2 eexists. split; [exact K|]. split; [exact K'|]. apply (Q C C' IC IC' g g _ _ _ _ K K' K K').
Qed.
