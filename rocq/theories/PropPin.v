(** C99: nodes held fixed. *)
Require Import Reals List Arith Lia Lra Bool Permutation.
From Verif Require Import Lin LinFacts SpecGeom SO3 SE3 SO3Misc SE3Alg Nodes NodesProofs Robust Graph GraphProofs Sums Solve SpecSolve SolveFrame SolveSums SolveBuild SolveProofs Session SessionProofs.
From Verif Require Import Factors SpecFactors FactorsSession FrameSolve SpecFrame SpecSolvable SolvableFactors SolvableSession MappingSession Reorder PropSolve PropFrame PropSolvable PropMapping PropFactors SpecLocate SpecChain Chain SpecGrow Grow PropGrow SpecPin Pin.
Import ListNotations.
Local Open Scope R_scope.

(** *** Turning nodes into anchors keeps a graph determined *)
Theorem C99_determined : forall lin lin' rob cs cs' s s', typed [] cs -> typed [] cs' -> Forall call_info cs -> Forall call_info cs' -> rob <> RANSAC ->
  pycalls lin rob (solver_new world_new) cs = Some s -> pycalls lin' rob (solver_new world_new) cs' = Some s' -> pinned cs cs' ->
  (forall i, (i < length (nodes_of cs))%nat -> state_of (s_w s') i = state_of (s_w s) i) ->
  exists b b', build_problem false s = Some b /\ build_problem false s' = Some b' /\
  (nonsingular (g_stateDim (w_graph (s_w s))) (s_L b) -> nonsingular (g_stateDim (w_graph (s_w s'))) (s_L b')).
Proof.
  intros lin lin' rob cs cs' s s' Ty Ty' P P' NR E E' G Same. destruct (build_forms lin rob cs s Ty P NR E) as (b & Eb & V & O & _ & F & S & Q). destruct (build_forms lin' rob cs' s' Ty' P' NR E') as (b' & Eb' & V' & O' & _ & F' & _ & _).
  exists b, b'. split; auto. split; auto. set (n := g_stateDim (w_graph (s_w s))) in *. set (n' := g_stateDim (w_graph (s_w s'))) in *. intros NS x Zx.
  assert (Z' : form n' (s_L b') x x = 0) by (rewrite form_rows; unfold dot; apply sumn_zero; intros i Hi; rewrite Zx by auto; ring).
  set (y := loosen (s_w s) (s_w s') x). assert (Z : form n (s_L b) y y = 0). { rewrite F. unfold y. rewrite (loosen_form rob cs cs' (s_w s) (s_w s') V V' O O' G P P' NR Same x x), <- F'. exact Z'. }
  apply (loosen_zero rob cs cs' (s_w s) (s_w s') V V' O O' G Same x). apply (NS y). apply form_kernel; auto.
Qed.
Print Assumptions C99_determined.

(** *** ... and never makes any combination of the states less certain *)
Theorem C99_fixed : forall lin lin' rob cs cs' s s', typed [] cs -> typed [] cs' -> Forall call_info cs -> Forall call_info cs' -> rob <> RANSAC ->
  pycalls lin rob (solver_new world_new) cs = Some s -> pycalls lin' rob (solver_new world_new) cs' = Some s' -> pinned cs cs' ->
  (forall i, (i < length (nodes_of cs))%nat -> state_of (s_w s') i = state_of (s_w s) i) ->
  exists b b', build_problem false s = Some b /\ build_problem false s' = Some b' /\ let n := g_stateDim (w_graph (s_w s)) in let n' := g_stateDim (w_graph (s_w s')) in
  forall C C', inverse_of n (s_L b) C -> inverse_of n' (s_L b') C' -> forall g v v', combination (s_w s) g v -> combination (s_w s') g v' -> quad n' C' v' v' <= quad n C v v.
Proof.
  intros lin lin' rob cs cs' s s' Ty Ty' P P' NR E E' G Same. destruct (build_forms lin rob cs s Ty P NR E) as (b & Eb & V & O & _ & F & S & Q). destruct (build_forms lin' rob cs' s' Ty' P' NR E') as (b' & Eb' & V' & O' & _ & F' & _ & _).
  exists b, b'. split; auto. split; auto. cbv zeta. set (n := g_stateDim (w_graph (s_w s))) in *. set (n' := g_stateDim (w_graph (s_w s'))) in *. intros C C' I I' g v v' K K'.
  set (y := fun i => sumn n (fun j => C i j * v j)). set (y' := fun i => sumn n' (fun j => C' i j * v' j)). set (z := loosen (s_w s) (s_w s') y').
  assert (Y : forall x, form n (s_L b) x y = dot n x v) by (intros x; apply inverse_form; auto). assert (Y' : forall x, form n' (s_L b') x y' = dot n' x v') by (intros x; apply inverse_form; auto).
  assert (Zf : form n (s_L b) z z = dot n z v). { rewrite F. unfold z at 1 2. rewrite (loosen_form rob cs cs' (s_w s) (s_w s') V V' O O' G P P' NR Same y' y'), <- F', Y'. symmetry. apply (loosen_dot rob cs cs' (s_w s) (s_w s') V V' O O' G Same g v v' y' K K'). }
  assert (Zd : dot n z v = dot n' y' v') by (apply (loosen_dot rob cs cs' (s_w s) (s_w s') V V' O O' G Same g v v' y' K K')).
  assert (D : forall m (a c : nat -> R), dot m a c = dot m c a) by (intros; unfold dot; apply sumn_ext; intros; ring).
  rewrite !quad_apply. fold y y'. rewrite (D n' v' y'), (D n v y), <- Zd, <- (Y y).
  pose proof (Q (fun i => y i + -1 * z i)) as Pos. rewrite form_plus_l, !form_plus_r in Pos.
  assert (N1 : forall c, form n (s_L b) (fun i => -1 * z i) c = - form n (s_L b) z c) by (intros c; unfold form; rewrite <- sumn_opp; apply sumn_ext; intros; rewrite <- sumn_opp; apply sumn_ext; intros; ring).
  assert (N2 : forall c, form n (s_L b) c (fun i => -1 * z i) = - form n (s_L b) c z) by (intros c; unfold form; rewrite <- sumn_opp; apply sumn_ext; intros; rewrite <- sumn_opp; apply sumn_ext; intros; ring).
  rewrite N1, !N2, N1, (S y z), (Y z), Zf in Pos. lra.
Qed.
Print Assumptions C99_fixed.

(** a path of three poses, whose last one is held fixed as well *)
Definition pin_calls : list pycall := [CNode ANCHOR (P3 m4id); CNode STANDARD (P3 step1); CNode ANCHOR (P3 (m4mul step1 step1)); C2Poses3d step1 1 2 id3 false; C2Poses3d step1 0 1 id3 false].
Lemma combination_exists w g : combination w g (pack (ndim w) (g_active (w_graph w)) (fun l => g (n_id (nd w l)))).
Proof. intros m l k Hm Hk. unfold col. rewrite (pack_at _ _ _ m l k Hm Hk). reflexivity. Qed.
Example C99_ex : forall lin rob g, exists s s' v v', typed [] path_calls /\ typed [] pin_calls /\ Forall call_info path_calls /\ Forall call_info pin_calls /\
  pycalls lin rob (solver_new world_new) path_calls = Some s /\ pycalls lin rob (solver_new world_new) pin_calls = Some s' /\ pinned path_calls pin_calls /\
  (forall i, (i < length (nodes_of path_calls))%nat -> state_of (s_w s') i = state_of (s_w s) i) /\ combination (s_w s) g v /\ combination (s_w s') g v' /\
  g_stateDim (w_graph (s_w s)) = 12%nat /\ g_stateDim (w_graph (s_w s')) = 6%nat /\
  forall i, (i < length (nodes_of path_calls))%nat -> held path_calls i.
Proof.
  intros lin rob g. assert (T : typed [] path_calls) by (cbn; repeat split; auto; discriminate). assert (T1 : typed [] pin_calls) by (cbn; repeat split; auto; discriminate).
  destruct (session_inv lin rob _ T) as (s & E & _). destruct (session_inv lin rob _ T1) as (s1 & E1 & _). exists s, s1. do 2 eexists.
  split; auto. split; auto.
  split. { unfold path_calls. repeat (apply Forall_cons; [first [exact I|exact (id3_proper 6)]|]). apply Forall_nil. }
  split. { unfold pin_calls. repeat (apply Forall_cons; [first [exact I|exact (id3_proper 6)]|]). apply Forall_nil. }
  split; auto. split; auto.
  split. { split; [unfold path_calls, pin_calls; cbn; repeat (constructor; [split; [reflexivity|cbn; auto]|]); constructor|apply perm_swap]. }
  split. { assert (A : forall k, (k < 3)%nat -> state_of (s_w s) k = path_poses k) by (clear - E; small_run E). assert (A1 : forall k, (k < 3)%nat -> state_of (s_w s1) k = path_poses k) by (clear - E1; unfold pin_calls in E1; small_run E1). intros i Hi. change (length (nodes_of path_calls)) with 3%nat in Hi. rewrite A, A1 by auto. auto. }
  split; [apply combination_exists|]. split; [apply combination_exists|].
  split. { clear - E. unfold path_calls in E. cbv -[m4id id3 step1 m4mul res_2poses3d jac_2poses3d init_2poses3d lvec lmat beside l6 IZR R0 R1 sqrt] in E. injection E as <-. reflexivity. }
  split. { clear - E1. unfold pin_calls in E1. cbv -[m4id id3 step1 m4mul res_2poses3d jac_2poses3d init_2poses3d lvec lmat beside l6 IZR R0 R1 sqrt] in E1. injection E1 as <-. reflexivity. }
  assert (H0 : held path_calls 0) by (eapply held_anchor; reflexivity).
  assert (H1 : held path_calls 1) by (eapply held_2poses3d; [|apply (id_positive 6)|exact H0]; unfold path_calls; cbn; auto 20).
  intros i Hi. cbn in Hi. destruct i as [|[|[|i]]]; auto; try lia. eapply held_2poses3d; [|apply (id_positive 6)|exact H1]; unfold path_calls; cbn; auto 20.
Qed.
