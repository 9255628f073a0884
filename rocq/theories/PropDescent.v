(** C93: the gradient modes of the plane registration. *)
Require Import Reals List Arith Lia Lra Psatz Bool.
From Verif Require Import Lin LinFacts SO3 SE3 SpecGeom SE3Ops SE3Alg SE3Exp Sums SE3Tangent FactorsDer.
From Verif Require Import Registration SpecRegistration ArunProofs RegistrationMore Optimizer Planes SpecPlanes PlanesProofs PlanesEigen PlanesMore.
From Verif Require Import SpecPlaneReg PlaneRegProofs PlaneRegMore PlaneRegSolve PlaneRegInit PlaneRegGrad PlaneRegGrad3 PropPlaneGrad Evaluate SpecDescent Descent.
Import ListNotations.
Local Open Scope R_scope.

(** GRADIENT_ALL_POSES needs planes made for the number of poses, and points at
    the last pose: the other poses do not count. *)
Theorem C93_all_poses_defined : forall k a ops r single, Forall reg_ok ops -> reg_run k ops preg_new = Some r -> (2 <= poses_of ops)%nat ->
  ((exists c r', preg_solve (k_eigs k) (k_inv k) (k_svd k) GRADIENT_ALL_POSES single (set_alpha_parameter a r) = Some (c, r')) <->
   sizes (poses_of ops) (planes_of ops) /\ (0 < points_at (poses_of ops - 1) (planes_of ops))%nat).
Proof.
  intros k a ops r s F E N. pose proof (after_run k ops r F E) as AF. split.
  - intros (c & r' & H). exact (all_poses_needs k a _ r s c r' AF N H).
  - intros (SZ & P). exact (all_poses_solvable k a _ r s AF N SZ P).
Qed.
Print Assumptions C93_all_poses_defined.
(** GRADIENT_BENGIOS_NAG needs points at every pose but the first. *)
Theorem C93_momentum_defined : forall k a ops r single, Forall reg_ok ops -> reg_run k ops preg_new = Some r -> (2 <= poses_of ops)%nat ->
  ((exists c r', preg_solve (k_eigs k) (k_inv k) (k_svd k) GRADIENT_BENGIOS_NAG single (set_alpha_parameter a r) = Some (c, r')) <->
   sizes (poses_of ops) (planes_of ops) /\ forall t, (1 <= t < poses_of ops)%nat -> (0 < points_at t (planes_of ops))%nat).
Proof.
  intros k a ops r s F E N. pose proof (after_run k ops r F E) as AF. destruct (members_run k ops r E) as (LP & _). split.
  - intros (c & r' & H). exact (nag_needs k a _ r s c r' AF N H).
  - intros (SZ & P). exact (nag_solvable k a _ r s AF N SZ P LP).
Qed.
Print Assumptions C93_momentum_defined.
(** GRADIENT_ALL_POSES is gradient descent on all poses but the first: each pass
    moves every one of them by -c times the gradient of the total error in that
    pose, c being alpha over the points of the last pose and over the number of
    poses.  It goes on until two errors in a row differ by at most 1e-4, or ten
    thousand times, whatever singleIteration says. *)
Theorem C93_all_poses : forall k a ops r single c r', (forall Q, m4tr Q = Q -> exact4 (k_eigs k) Q) -> Forall reg_ok ops -> reg_run k ops preg_new = Some r -> (2 <= poses_of ops)%nat ->
  preg_solve (k_eigs k) (k_inv k) (k_svd k) GRADIENT_ALL_POSES single (set_alpha_parameter a r) = Some (c, r') ->
  c = 0%nat /\ (0 < pr_iters r' <= 100 * 100)%nat /\
  exists (trs : nat -> list M4) (E : nat -> R), trs 0%nat = pr_traj r /\ trs (pr_iters r') = pr_traj r' /\ stops E (pr_iters r') /\
  forall i, (i < pr_iters r')%nat -> total_error (trs i) (planes_of ops) (E i) /\
    descent_step (planes_of ops) (a / INR (points_at (poses_of ops - 1) (planes_of ops)) / INR (poses_of ops)) (trs i) (trs (S i)).
Proof.
  intros k a ops r s c r' X F E N H. destruct (all_poses_solve k a _ r s c r' X (after_run k ops r F E) N H) as (A & _ & _ & B & C). auto.
Qed.
Print Assumptions C93_all_poses.
(** Without set_alpha_parameter alpha is 0.75. *)
Theorem C93_alpha : forall k ops r, reg_run k ops preg_new = Some r -> set_alpha_parameter (3 / 4) r = r.
Proof. intros k ops r E. destruct (members_run k ops r E) as (_ & A & _). rewrite <- A. apply alpha_same. Qed.
Print Assumptions C93_alpha.
(** With a small enough step, a pass lowers the error, unless every gradient is zero. *)
Theorem C93_downhill : forall k a ops r single c r', (forall Q, m4tr Q = Q -> exact4 (k_eigs k) Q) -> Forall reg_ok ops -> reg_run k ops preg_new = Some r -> (2 <= poses_of ops)%nat ->
  distinct (planes_of ops) (pr_traj r) ->
  preg_solve (k_eigs k) (k_inv k) (k_svd k) GRADIENT_ALL_POSES single (set_alpha_parameter a r) = Some (c, r') ->
  exists g, gradient_at (planes_of ops) (pr_traj r) g /\
  ((forall t, (0 < t < poses_of ops)%nat -> g t = v6zero) \/
   exists c0, 0 < c0 /\ forall c tr e e', 0 < c < c0 -> descent_step (planes_of ops) c (pr_traj r) tr -> total_error (pr_traj r) (planes_of ops) e -> total_error tr (planes_of ops) e' -> e' < e).
Proof.
  intros k a ops r s c r' X F E N DI H. pose proof (after_run k ops r F E) as AF. destruct (after_length k _ r AF ltac:(unfold poses_of in N; lia)) as [NP LT]. fold (poses_of ops) in LT.
  destruct (all_poses_solve k a _ r s c r' X AF N H) as (_ & _ & _ & M & trs & Er & T0 & _ & _ & ST). destruct (ST 0%nat ltac:(lia)) as (_ & g & G & _). rewrite T0 in G. fold (planes_of ops) in G. specialize (G DI).
  exists g. split; [exact G|]. assert (DE : (forall t, (0 < t < poses_of ops)%nat -> g t = v6zero) \/ exists t, (0 < t < poses_of ops)%nat /\ g t <> v6zero).
  { destruct (Classical_Prop.classic (exists t, (0 < t < poses_of ops)%nat /\ g t <> v6zero)) as [Y|Y]; [right; exact Y|]. left. intros t Ht. apply Classical_Prop.NNPP. intros Z. apply Y. eauto. }
  destruct DE as [Z | NZ]; [left; exact Z | right]. rewrite <- LT in NZ. destruct (downhill _ _ g (Forall_inv_tail (af_hom _ _ _ AF)) G NZ) as (c0 & C0 & HC). exists c0. split; [exact C0|].
  intros c1 tr e e' Hc (g' & G' & ->) T T'. specialize (G' DI). apply (HC c1 e e' Hc T). erewrite moved_ext; [exact T'|]. intros t Ht. cbv beta. destruct (Nat.eqb t 0); auto. exact (gradient_unique _ _ _ _ G G' t Ht).
Qed.
Print Assumptions C93_downhill.
(** GRADIENT_BENGIOS_NAG: each pass applies momentum with beta 0.1 to the last pose
    and puts the others on the constant-velocity path to it; the first stays.  The
    velocity is kept from one solve to the next; it is zero after
    set_number_planes_and_poses and reset_solution. *)
Theorem C93_momentum : forall k a ops r single c r', (forall Q, m4tr Q = Q -> exact4 (k_eigs k) Q) -> Forall reg_ok ops -> reg_run k ops preg_new = Some r -> (2 <= poses_of ops)%nat ->
  preg_solve (k_eigs k) (k_inv k) (k_svd k) GRADIENT_BENGIOS_NAG single (set_alpha_parameter a r) = Some (c, r') ->
  c = 0%nat /\ (0 < pr_iters r' <= 100 * 100)%nat /\
  exists (xs : nat -> list M4 * V6) (E : nat -> R), fst (xs 0%nat) = pr_traj r /\ (at_rest ops = true -> snd (xs 0%nat) = v6zero) /\ fst (xs (pr_iters r')) = pr_traj r' /\
  (if single then pr_iters r' = 1%nat else stops E (pr_iters r')) /\
  forall i, (i < pr_iters r')%nat -> total_error (fst (xs i)) (planes_of ops) (E i) /\ momentum_step (planes_of ops) a (1 / 10) (poses_of ops) (xs i) (xs (S i)).
Proof.
  intros k a ops r s c r' X F E N H. destruct (members_run k ops r E) as (_ & _ & BE & RE).
  destruct (nag_solve k a _ r s c r' X (after_run k ops r F E) N H) as (A & _ & _ & B & xs & Er & T0 & V0 & TM & ST & PS). split; [exact A|]. split; [exact B|]. exists xs, Er.
  split; [exact T0|]. split; [intros RS; rewrite V0; apply zero_last; apply RE; exact RS|]. split; [exact TM|]. split; [exact ST|]. rewrite BE in PS. exact PS.
Qed.
Print Assumptions C93_momentum.
(** singleIteration does not make GRADIENT_ALL_POSES stop after one pass. *)
Theorem C93_single_refuted : exists k ops r c r', (forall Q, m4tr Q = Q -> exact4 (k_eigs k) Q) /\ Forall building ops /\ reg_run k ops preg_new = Some r /\
  preg_solve (k_eigs k) (k_inv k) (k_svd k) GRADIENT_ALL_POSES true r = Some (c, r') /\ (2 <= pr_iters r')%nat.
Proof.
  destruct exact4_all_exists as [f X]. set (k := mkKernels f (fun _ _ _ _ => 0) (fun _ => mkSvd m3id v3zero m3id)). destruct (duo_run k) as (r & E & TR).
  assert (OK : Forall reg_ok duo) by (repeat constructor). assert (N : (2 <= poses_of duo)%nat) by (unfold poses_of; rewrite duo_history; cbn; lia).
  assert (SZ : sizes (poses_of duo) (planes_of duo)) by (unfold poses_of, planes_of; rewrite duo_history; repeat constructor).
  assert (PT : (0 < points_at (poses_of duo - 1) (planes_of duo))%nat) by (unfold poses_of, planes_of; rewrite duo_history; cbn; lia).
  destruct (proj2 (C93_all_poses_defined k (3 / 4) duo r true OK E N) (conj SZ PT)) as (c & r' & H). destruct (C93_all_poses k (3 / 4) duo r true c r' X OK E N H) as (_ & M & trs & Er & T0 & _ & (_ & ST) & PS).
  rewrite (C93_alpha k duo r E) in H. exists k, duo, r, c, r'. split; [exact X|]. split; [repeat constructor|]. split; [exact E|]. split; [exact H|].
  destruct (Nat.le_gt_cases 2 (pr_iters r')) as [|L]; auto. exfalso. assert (M1 : pr_iters r' = 1%nat) by lia. rewrite M1 in *. destruct (ST ltac:(lia)) as (j & J & D). assert (j = 0%nat) by lia. subst j. clear ST J.
  destruct (PS 0%nat ltac:(lia)) as (T & _). rewrite T0, TR in T. unfold planes_of in T. rewrite duo_history in T. cbn [snd] in T. inversion T as [|? ? ? ? e s [_ LE] T2]; subst. inversion T2; subst.
  match type of LE with context [used 2 ?x] => change (used 2 x) with [scan0; scan1] in LE end. specialize (LE (mkV4 (mkV3 0 1 0) 0)). assert (U : unit4 (mkV4 (mkV3 0 1 0) 0)) by (unfold unit4, v4dot, v3dot; cbn; ring). specialize (LE U).
  unfold cloud_error, scan0, scan1, plane_at, move, se3_of_Rt, lsum in LE. cbn [combine fold_right map fst snd] in LE. lin_unfold_in LE.
  apply Rabs_le_between in D || (apply Rcomplements.Rabs_le_between in D). lra.
Qed.
Print Assumptions C93_single_refuted.
(** A plane seen well from the first two of three poses: Gauss-Newton solves, but
    the gradient over all poses is not finite, as the last pose sees nothing. *)
Theorem C93_unseen_refuted : exists k ops r, (forall Q, m4tr Q = Q -> exact4 (k_eigs k) Q) /\ Forall building ops /\ reg_run k ops preg_new = Some r /\ distinct (planes_of ops) (pr_traj r) /\
  (exists c r', preg_solve (k_eigs k) (k_inv k) (k_svd k) GN_HESSIAN false r = Some (c, r')) /\
  preg_solve (k_eigs k) (k_inv k) (k_svd k) GRADIENT_ALL_POSES false r = None /\ preg_solve (k_eigs k) (k_inv k) (k_svd k) GRADIENT_BENGIOS_NAG false r = None.
Proof.
  destruct exact4_all_exists as [f X]. set (k := mkKernels f (fun _ _ _ _ => 0) (fun _ => mkSvd m3id v3zero m3id)). destruct (swing_run k) as (r & E & TR). exists k, swing, r.
  assert (OK : Forall reg_ok swing) by (repeat constructor). assert (N : (2 <= poses_of swing)%nat) by (unfold poses_of; rewrite swing_history; cbn; lia).
  assert (SZ : sizes (poses_of swing) (planes_of swing)) by (unfold poses_of, planes_of; rewrite swing_history; repeat constructor).
  assert (PT : points_at 2 (planes_of swing) = 0%nat) by reflexivity.
  split; [exact X|]. split; [exact swing_building|]. split; [exact E|]. split; [|split; [|split]].
  - unfold distinct, planes_of. rewrite swing_history, TR. cbn [snd]. constructor; [|constructor]. pose proof swing_sole as SW. rewrite <- swing_used in SW. exact SW.
  - destruct (enabled_step k _ r (RSolve GN_HESSIAN false) (after_run k swing r OK E)) as (r' & H); [cbn; split; [lia | exact SZ]|]. cbn [reg_step] in H. destruct (preg_solve _ _ _ _ _ _) as [[c r1]|]; [eauto | discriminate H].
  - destruct (preg_solve _ _ _ _ _ _) as [[c r1]|] eqn:H; [|reflexivity]. rewrite <- (C93_alpha k swing r E) in H. destruct (proj1 (C93_all_poses_defined k (3 / 4) swing r false OK E N)) as (_ & P); [eauto|].
    replace (poses_of swing - 1)%nat with 2%nat in P by reflexivity. lia.
  - destruct (preg_solve _ _ _ _ _ _) as [[c r1]|] eqn:H; [|reflexivity]. rewrite <- (C93_alpha k swing r E) in H. destruct (proj1 (C93_momentum_defined k (3 / 4) swing r false OK E N)) as (_ & P); [eauto|].
    specialize (P 2%nat ltac:(unfold poses_of; rewrite swing_history; cbn; lia)). lia.
Qed.
Print Assumptions C93_unseen_refuted.

(** two poses, a plane seen from both: both modes run, from rest *)
Example C93_ex : forall k a single, exists r, Forall reg_ok duo /\ reg_run k duo preg_new = Some r /\ (2 <= poses_of duo)%nat /\ at_rest duo = true /\ distinct (planes_of duo) (pr_traj r) /\
  (exists c r', preg_solve (k_eigs k) (k_inv k) (k_svd k) GRADIENT_ALL_POSES single (set_alpha_parameter a r) = Some (c, r')) /\
  (exists c r', preg_solve (k_eigs k) (k_inv k) (k_svd k) GRADIENT_BENGIOS_NAG single (set_alpha_parameter a r) = Some (c, r')).
Proof.
  intros k a s. destruct (duo_run k) as (r & E & TR). exists r. assert (OK : Forall reg_ok duo) by (repeat constructor). assert (N : (2 <= poses_of duo)%nat) by (unfold poses_of; rewrite duo_history; cbn; lia).
  assert (SZ : sizes (poses_of duo) (planes_of duo)) by (unfold poses_of, planes_of; rewrite duo_history; repeat constructor).
  split; [exact OK|]. split; [exact E|]. split; [exact N|]. split; [reflexivity|]. split; [|split].
  - unfold distinct, planes_of. rewrite duo_history, TR. cbn [snd]. constructor; [|constructor]. pose proof duo_sole as SW. rewrite <- duo_used in SW. exact SW.
  - apply (C93_all_poses_defined k a duo r s OK E N). split; [exact SZ|]. unfold poses_of, planes_of. rewrite duo_history. cbn. lia.
  - apply (C93_momentum_defined k a duo r s OK E N). split; [exact SZ|]. intros t Ht. assert (t = 1%nat) by (unfold poses_of in Ht; rewrite duo_history in Ht; cbn in Ht; lia). subst t.
    unfold planes_of. rewrite duo_history. cbn. lia.
Qed.
