(** C95: the uncertainty of a chain of odometry. *)
Require Import Reals List Arith Lia Lra Bool.
From Verif Require Import Lin LinFacts SpecGeom SO3 SE3 SO3Exp SO3Ln SO3Misc SE3Alg SE3Exp SE3Ln SE3Cov SE3CovProofs Nodes NodesProofs Robust Graph GraphProofs Sums Solve SpecSolve SolveFrame SolveSums SolveBuild SolveProofs Session SessionProofs.
From Verif Require Import Factors SpecFactors FactorsDer FactorsPlanar Factors3D Factors3DLn FactorsMore FactorsSession FrameSolve SpecFrame SpecSolvable SolvableFactors SolvableSession PropSolve PropFrame PropSolvable PropFactors SpecChain Chain.
Import ListNotations.
Local Open Scope R_scope.

(** *** The inverse of the information matrix at poses that agree with the increments:
    the block of two poses is the sum of the covariances of the increments on the way
    to both *)
Theorem C95_covariance : forall lin rob cs s T obs W Q n, typed [] cs -> Forall call_info cs -> odometry cs obs W n -> rob <> RANSAC ->
  pycalls lin rob (solver_new world_new) cs = Some s -> dead_reckoning T obs n -> (forall k, (k <= n)%nat -> state_of (s_w s) k = P3 (T k)) ->
  (forall k, (k < n)%nat -> inverse_of 6 (W k) (Q k)) ->
  exists b, build_problem false s = Some b /\ g_stateDim (w_graph (s_w s)) = (6 * n)%nat /\ inverse_of (6 * n) (s_L b) (shared_way Q) /\
    forall C, inverse_of (6 * n) (s_L b) C -> forall p q, (p < 6 * n)%nat -> (q < 6 * n)%nat -> C p q = shared_way Q p q.
Proof.
  intros lin rob cs s T obs W Q n Ty P Od NR E DR St IV. destruct (chain_build lin rob cs s T obs W Q n Ty P Od NR E DR St IV) as (b & Eb & D & Sy & Fo). exists b. split; auto. split; auto. split; [apply inverse_columns; auto|].
  intros C I p q Hp Hq. apply (inverse_only (6 * n) (s_L b) (shared_way Q) C Sy Fo I); auto.
Qed.
Print Assumptions C95_covariance.

(** *** With the covariances of the increments carried into the frame of the map, these
    are the covariances that SE3Cov.compound_2nd_order gives for the poses *)
Theorem C95_compound : forall lin rob cs s T obs W V n, typed [] cs -> Forall call_info cs -> odometry cs obs W n -> rob <> RANSAC ->
  pycalls lin rob (solver_new world_new) cs = Some s -> dead_reckoning T obs n -> (forall k, (k <= n)%nat -> state_of (s_w s) k = P3 (T k)) ->
  (forall k, (k < n)%nat -> inverse_of 6 (W k) (entries6 (carried (T k) (V k)))) ->
  exists b, build_problem false s = Some b /\ forall C, inverse_of (6 * n) (s_L b) C -> forall i j a c, (i < n)%nat -> (j < n)%nat -> (a < 6)%nat -> (c < 6)%nat ->
    let x := compounded (T 0%nat) obs V (S (min i j)) in sc_T x = T (S (min i j)) /\ C (6 * i + a)%nat (6 * j + c)%nat = entries6 (sc_cov x) a c.
Proof.
  intros lin rob cs s T obs W V n Ty P Od NR E DR St IV. destruct (C95_covariance lin rob cs s T obs W _ n Ty P Od NR E DR St IV) as (b & Eb & _ & _ & U). exists b. split; auto. intros C I i j a c Hi Hj Ha Hc x.
  assert (D2 : forall k, (k < n)%nat -> T (S k) = m4mul (T k) (obs k)) by (intros k Hk; apply DR; auto). split.
  - apply (compounded_T (T 0%nat) obs V T n eq_refl D2). lia.
  - unfold x. rewrite (compounded_cov (T 0%nat) obs V T n eq_refl D2) by lia. rewrite (U C I) by lia. unfold shared_way. destruct (split6 i a Ha) as [-> ->]. destruct (split6 j c Hc) as [-> ->]. reflexivity.
Qed.
Print Assumptions C95_compound.

(** *** The uncertainty grows along the chain *)
Theorem C95_grows : forall lin rob cs s T obs W Q n, typed [] cs -> Forall call_info cs -> odometry cs obs W n -> rob <> RANSAC ->
  pycalls lin rob (solver_new world_new) cs = Some s -> dead_reckoning T obs n -> (forall k, (k <= n)%nat -> state_of (s_w s) k = P3 (T k)) ->
  (forall k, (k < n)%nat -> inverse_of 6 (W k) (Q k)) ->
  exists b, build_problem false s = Some b /\ forall C, inverse_of (6 * n) (s_L b) C -> forall i v, (S i < n)%nat ->
    quad 6 (fun a c => C (6 * i + a)%nat (6 * i + c)%nat) v v <= quad 6 (fun a c => C (6 * S i + a)%nat (6 * S i + c)%nat) v v.
Proof.
  intros lin rob cs s T obs W Q n Ty P Od NR E DR St IV. destruct (C95_covariance lin rob cs s T obs W _ n Ty P Od NR E DR St IV) as (b & Eb & _ & _ & U). exists b. split; auto. intros C I i v Hi.
  assert (B : forall j, (j < n)%nat -> quad 6 (fun a c => C (6 * j + a)%nat (6 * j + c)%nat) v v = quad 6 (fun a c => sumn (S j) (fun k => Q k a c)) v v).
  { intros j Hj. unfold quad. apply sumn_ext. intros a Ha. apply sumn_ext. intros c Hc. rewrite (U C I) by lia. unfold shared_way. destruct (split6 j a Ha) as [-> ->]. destruct (split6 j c Hc) as [-> ->]. rewrite Nat.min_id. reflexivity. }
  rewrite !B by lia. assert (N : 0 <= quad 6 (Q (S i)) v v).
  { destruct (chain_info cs obs W n (S i) P Od Hi) as [Sy Ps]. specialize (IV (S i) Hi).
    set (y := fun a => sumn 6 (fun c => Q (S i) a c * v c)). replace (quad 6 (Q (S i)) v v) with (quad 6 (W (S i)) y y); [apply Ps|]. apply inverse_quad; auto. }
  replace (quad 6 (fun a c => sumn (S (S i)) (fun k => Q k a c)) v v) with (quad 6 (fun a c => sumn (S i) (fun k => Q k a c)) v v + quad 6 (Q (S i)) v v); [lra|].
  unfold quad. rewrite <- sumn_plus. apply sumn_ext. intros a _. rewrite <- sumn_plus. apply sumn_ext. intros c _. change (sumn (S (S i)) ?f) with (sumn (S i) f + f (S i)). cbv beta. ring.
Qed.
Print Assumptions C95_grows.

(** *** With the informations of the increments in their own frames this fails: the
    factor takes its information in the frame of the map *)
Definition ahead1 : M4 := trans (mkV3 1 0 0).
Definition walk_calls : list pycall := [CNode ANCHOR (P3 m4id); CNode STANDARD (P3 ahead1); CNode STANDARD (P3 (m4mul ahead1 ahead1)); C2Poses3d ahead1 0 1 id3 false; C2Poses3d ahead1 1 2 id3 false].
Definition walk_poses (k : nat) : M4 := match k with 0%nat => m4id | 1%nat => ahead1 | _ => m4mul ahead1 ahead1 end.
Lemma id6_inverse : inverse_of 6 id3 (entries6 m6id).
Proof. intros i j Hi Hj. destruct (i_lt_6 i Hi) as [->|[->|[->|[->|[->| ->]]]]]; destruct (i_lt_6 j Hj) as [->|[->|[->|[->|[->| ->]]]]]; cbn; ring. Qed.
Lemma walk_ok : typed [] walk_calls /\ Forall call_info walk_calls /\ odometry walk_calls (fun _ => ahead1) (fun _ => id3) 2 /\ dead_reckoning walk_poses (fun _ => ahead1) 2.
Proof.
  split. { cbn; repeat split; auto; discriminate. } split. { unfold walk_calls. repeat (apply Forall_cons; [first [exact I|exact (id3_proper 6)]|]). apply Forall_nil. }
  split. { split; [exists (fun _ => false); reflexivity|]. split; [eexists; reflexivity|]. split; [reflexivity|]. intros [|[|i]] H; [eexists; reflexivity|eexists; reflexivity|lia]. }
  split; [apply rigid_id|]. intros [|[|k]] H; [| |lia]; (split; [apply trans_rigid|]); cbn [walk_poses]; [rewrite m4mul_id_l|]; reflexivity.
Qed.
Lemma walk_run lin rob : exists s, pycalls lin rob (solver_new world_new) walk_calls = Some s /\ forall k, (k <= 2)%nat -> state_of (s_w s) k = P3 (walk_poses k).
Proof.
  destruct walk_ok as (T & _). destruct (session_inv lin rob _ T) as (s & E & V & _). exists s. split; [exact E|].
  clear - E. unfold walk_calls in E. cbv -[ahead1 m4id m4mul id3 IZR lvec res_2poses3d jac_2poses3d l6 lmat R1 R0] in E. injection E as <-. intros [|[|[|k]]] H; try lia; reflexivity.
Qed.
Theorem C95_frame_refuted : exists cs T obs W V n, typed [] cs /\ Forall call_info cs /\ odometry cs obs W n /\ dead_reckoning T obs n /\ (forall k, (k < n)%nat -> inverse_of 6 (W k) (entries6 (V k))) /\
  forall lin rob, rob <> RANSAC -> exists s b, pycalls lin rob (solver_new world_new) cs = Some s /\ (forall k, (k <= n)%nat -> state_of (s_w s) k = P3 (T k)) /\ build_problem false s = Some b /\
  forall C, inverse_of (6 * n) (s_L b) C -> C (6 * 1 + 4)%nat (6 * 1 + 4)%nat <> entries6 (sc_cov (compounded (T 0%nat) obs V 2)) 4 4.
Proof.
  exists walk_calls, walk_poses, (fun _ => ahead1), (fun _ => id3), (fun _ => m6id), 2%nat. destruct walk_ok as (T & P & Od & DR). split; auto. split; auto. split; auto. split; auto. split; [intros; apply id6_inverse|].
  intros lin rob NR. destruct (walk_run lin rob) as (s & E & St). destruct (C95_covariance lin rob walk_calls s walk_poses _ _ (fun _ => entries6 m6id) 2 T P Od NR E DR St ltac:(intros; apply id6_inverse)) as (b & Eb & _ & _ & U).
  exists s, b. split; auto. split; auto. split; auto. intros C I. rewrite (U C I) by (cbn; lia). unfold shared_way. cbn. unfold ahead1. lra.
Qed.
Print Assumptions C95_frame_refuted.

(** *** Examples *)
Example C95_ex : forall lin rob, exists s, typed [] walk_calls /\ Forall call_info walk_calls /\ odometry walk_calls (fun _ => ahead1) (fun _ => id3) 2 /\
  pycalls lin rob (solver_new world_new) walk_calls = Some s /\ dead_reckoning walk_poses (fun _ => ahead1) 2 /\ (forall k, (k <= 2)%nat -> state_of (s_w s) k = P3 (walk_poses k)) /\ inverse_of 6 id3 (entries6 m6id).
Proof.
  intros lin rob. destruct walk_ok as (T & P & Od & DR). destruct (walk_run lin rob) as (s & E & St). exists s. repeat (split; auto using id6_inverse); try apply Od; try apply DR.
Qed.
