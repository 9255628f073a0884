(** C62: the generator of synthetic plane scans. *)
Require Import Reals List Arith ZArith Lia Lra Psatz Bool.
From Flocq Require Import Core IEEE754.BinarySingleNaN IEEE754.Binary IEEE754.Bits.
From Verif Require Import Lin LinFacts SO3 SE3 SpecGeom SE3Ops SE3Alg SE3Exp SO3Exp SO3Near Sums Registration SpecRegistration Optimizer Spectral Planes SpecPlanes PlanesProofs PlanesMore.
From Verif Require Import SpecPlaneReg PlaneRegProofs PlaneRegMore PlaneRegBox CreatePoints CreatePointsFloat CreatePointsProofs CreatePointsReg PropPlaneReg PropSE3.
Import ListNotations.
Local Open Scope R_scope.

(** The plane index, computed with 24-bit floats, is in range below 2^23 points. *)
Theorem C62_index_range : forall i n p, (1 <= Z.of_nat n <= 2 ^ 24)%Z -> (i < p)%nat -> (Z.of_nat p < 2 ^ 23)%Z ->
  exists k, plane_index i n p = Some k /\ (k < n)%nat.
Proof. exact index_range. Qed.
Print Assumptions C62_index_range.
(** It is the integer quotient as long as numberPoints * numberPlanes <= 2^24. *)
Theorem C62_index_exact : forall i n p, (1 <= n)%nat -> (Z.of_nat (n * p) <= 2 ^ 24)%Z -> (i < p)%nat -> plane_index i n p = Some (i * n / p)%nat.
Proof. exact index_exact. Qed.
Print Assumptions C62_index_exact.
(** Full statement, false in the code: any number of points.  With rounding the
    last point can be given to a plane that does not exist; the constructor then
    reads past its vectors. *)
Theorem C62_index_refuted : exists i n p, (i < p)%nat /\ (1 <= n)%nat /\ (Z.of_nat p < 2 ^ 24)%Z /\ plane_index i n p = Some n /\
  (i * n / p < n)%nat /\ forall d N, (1 <= N)%nat -> create_points d p n N = None.
Proof.
  exists (Z.to_nat 8486571), (Z.to_nat 2051), (Z.to_nat 8486572).
  assert (E : plane_index (Z.to_nat 8486571) (Z.to_nat 2051) (Z.to_nat 8486572) = Some (Z.to_nat 2051)).
  { unfold plane_index, f32. rewrite !Z2Nat.id by lia. vm_compute. reflexivity. }
  split; [lia|]. split; [lia|]. split; [lia|]. split; [exact E|]. split; [apply Nat.div_lt_upper_bound; lia|].
  intros d N HN. apply (create_fails d _ _ N (Z.to_nat 8486571)); [exact HN | lia | exists (Z.to_nat 2051); split; [exact E | apply le_n]].
Qed.
Print Assumptions C62_index_refuted.
Example C62_index_ex : plane_index 7 3 10 = Some 2%nat /\ (Z.of_nat (3 * 10) <= 2 ^ 24)%Z.
Proof. split; [vm_compute; reflexivity | lia]. Qed.

(** Every scan has numberPoints points, with plane ids in range and
    nondecreasing; plane k holds at each time the points with id k, in order. *)
Theorem C62_scene : forall d p n N, (1 <= Z.of_nat n <= 2 ^ 24)%Z -> (Z.of_nat p < 2 ^ 23)%Z -> exists s, create_points d p n N = Some s /\
  length (sc_truth s) = N /\ length (sc_plane_poses s) = n /\ forall t, (t < N)%nat -> exists X ids,
  get_scan t s = Some X /\ get_point_plane_ids t s = Some ids /\ length X = p /\ length ids = p /\
  (forall k, In k ids -> (k < n)%nat) /\
  (forall i j a b, (i <= j)%nat -> nth_error ids i = Some a -> nth_error ids j = Some b -> (a <= b)%nat) /\
  forall k, (k < n)%nat -> exists pl, nth_error (sc_planes s) k = Some (k, pl) /\
    get_points t pl = Some (map fst (filter (fun q => Nat.eqb (snd q) k) (combine X ids))).
Proof.
  intros d p n N Hn Hp. destruct (index_function n p Hn Hp) as (idx & I & MO). destruct (scene_made (fun _ => mkEigen4 0 v4zero) d p n N idx I) as (s & E & SI).
  exists s. split; auto. split; [rewrite (si_truth _ _ _ _ _ _ _ SI), map_length, seq_length; auto|]. split; [rewrite (si_poses _ _ _ _ _ _ _ SI); unfold plane_poses_of; rewrite map_length, seq_length; auto|].
  intros t Ht. unfold get_scan, get_point_plane_ids. rewrite (si_X _ _ _ _ _ _ _ SI), (si_ids _ _ _ _ _ _ _ SI), !nth_map_seq by auto. eexists. eexists. split; [reflexivity|]. split; [reflexivity|].
  split; [rewrite map_length, seq_length; auto|]. split; [rewrite map_length, seq_length; auto|]. split.
  { intros k K. apply in_map_iff in K. destruct K as (i & <- & K). apply in_seq in K. apply I. lia. } split.
  { intros i j a b L A B. assert (J : (j < p)%nat). { apply Nat.nle_gt. intros C. rewrite (proj2 (nth_error_None _ _)) in B by (rewrite map_length, seq_length; auto). discriminate. }
    rewrite nth_map_seq in A, B by lia. injection A as <-. injection B as <-. apply MO; auto. }
  intros k K. destruct (si_planes _ _ _ _ _ _ _ SI) as (P & EP & R). exists (P k). rewrite EP. split; [exact (nth_map_seq (fun j => (j, P j)) k n K)|].
  destruct (run_shape _ _ _ _ (no_clear_pushes _ (history_push _ _ _ _ _ _)) (R k K)) as [SH _]. rewrite (shape_points N _ _ t SH Ht).
  rewrite all_pushed_nth by auto. rewrite pushed_history by (try apply seq_NoDup; apply in_seq; lia). f_equal. rewrite combine_maps, filter_map, map_map. apply f_equal. reflexivity.
Qed.
Print Assumptions C62_scene.
(** The points are spread evenly. *)
Theorem C62_counts : forall d p n N s k t, (1 <= p)%nat -> (1 <= n)%nat -> (Z.of_nat (n * p) <= 2 ^ 24)%Z -> create_points d p n N = Some s -> (k < n)%nat -> (t < N)%nat ->
  exists pl c, nth_error (sc_planes s) k = Some (k, pl) /\ get_number_points t pl = Some c /\ (p / n <= c <= p / n + 1)%nat.
Proof.
  intros d p n N s k t Hp Hn H E K Ht. assert (I : forall i, (i < p)%nat -> plane_index i n p = Some (i * n / p)%nat /\ (i * n / p < n)%nat).
  { intros i Hi. split; [apply index_exact; auto | apply Nat.div_lt_upper_bound; nia]. }
  destruct (scene_made (fun _ => mkEigen4 0 v4zero) d p n N _ I) as (s' & E' & SI). rewrite E in E'. injection E' as <-.
  destruct (si_planes _ _ _ _ _ _ _ SI) as (P & EP & R). exists (P k). rewrite EP. eexists. split; [exact (nth_map_seq (fun j => (j, P j)) k n K)|].
  destruct (run_shape _ _ _ _ (no_clear_pushes _ (history_push _ _ _ _ _ _)) (R k K)) as [SH _]. unfold get_number_points. rewrite (shape_nth N _ _ t SH).
  rewrite all_pushed_nth by auto. rewrite pushed_history by (try apply seq_NoDup; apply in_seq; lia). split; [reflexivity|]. cbn [length]. rewrite map_length. apply count_plane; auto.
Qed.
Print Assumptions C62_counts.
(** Ground truth: it starts at the identity and ends at the final pose drawn, if
    exp(ln .) gives that pose back; beyond the last pose it is the identity. *)
Theorem C62_truth : forall d p n N s, create_points d p n N = Some s -> (1 <= N)%nat -> sc_final s = se3_of_vec (d_final d) /\
  get_ground_truth_pose 0 s = Some m4id /\
  (forall t, (2 <= N)%nat -> (t < N)%nat -> get_ground_truth_pose t s = Some (se3_of_vec (v6scal (INR t / INR (N - 1)) (se3_ln_vee (sc_final s))))) /\
  ((2 <= N)%nat -> se3_of_vec (se3_ln_vee (sc_final s)) = sc_final s -> get_ground_truth_last_pose s = Some (sc_final s)) /\
  (forall t, (N <= t)%nat -> get_ground_truth_pose t s = Some m4id).
Proof.
  intros d p n N s E HN. unfold create_points in E. destruct (make_scans _ _ _ _ _ _ _) as [[[X ids] pl]|]; [|discriminate]. injection E as <-.
  unfold get_ground_truth_pose, get_ground_truth_last_pose. cbn [sc_final sc_nposes sc_truth]. rewrite map_length, seq_length. split; auto. split; [|split; [|split]].
  - destruct (Nat.ltb_spec 0 N); [|lia]. rewrite nth_map_seq by auto. rewrite truth_first. auto.
  - intros t H2 Ht. destruct (Nat.ltb_spec t N); [|lia]. rewrite nth_map_seq, truth_simple by auto. destruct (Nat.eqb_spec N 1); [lia|]. auto.
  - intros H2 EF. rewrite nth_map_seq, truth_last by lia. rewrite EF. auto.
  - intros t Ht. destruct (Nat.ltb_spec t N); [lia|]. auto.
Qed.
Print Assumptions C62_truth.
(** Moved by its ground truth pose, each point is at the drawn height over its
    plane. *)
Theorem C62_on_planes : forall d p n N s t i X ids x k P T, create_points d p n N = Some s -> step_ok (sc_final s) N ->
  get_scan t s = Some X -> get_point_plane_ids t s = Some ids -> nth_error X i = Some x -> nth_error ids i = Some k ->
  nth_error (sc_plane_poses s) k = Some P -> get_ground_truth_pose t s = Some T -> (t < N)%nat -> (1 <= Z.of_nat n <= 2 ^ 24)%Z -> (Z.of_nat p < 2 ^ 23)%Z -> exists y,
  se3_transform T x = se3_transform P y /\ vz y = vz (d_point d t i) /\
  (rigid P -> v3dot (m3app (mR P) (mkV3 0 0 1)) (v3sub (se3_transform T x) (mt P)) = vz (d_point d t i)).
Proof.
  intros d p n N s t i X ids x k P T E SO GX GI NX NI NP GT Ht Hn Hp. destruct (index_function n p Hn Hp) as (idx & I & _). destruct (scene_made (fun _ => mkEigen4 0 v4zero) d p n N idx I) as (s' & E' & SI). rewrite E in E'. injection E' as <-.
  unfold get_scan, get_point_plane_ids in *. rewrite (si_X _ _ _ _ _ _ _ SI), nth_map_seq in GX by auto. injection GX as <-. rewrite (si_ids _ _ _ _ _ _ _ SI), nth_map_seq in GI by auto. injection GI as <-.
  assert (Hi : (i < p)%nat). { apply Nat.nle_gt. intros C. rewrite (proj2 (nth_error_None _ _)) in NX by (rewrite map_length, seq_length; auto). discriminate. }
  rewrite nth_map_seq in NX by auto. rewrite nth_map_seq in NI by auto. injection NX as <-. injection NI as <-. destruct (I i Hi) as [_ L]. rewrite (si_poses _ _ _ _ _ _ _ SI) in NP. unfold plane_poses_of in NP. rewrite nth_map_seq in NP by auto. injection NP as <-.
  unfold get_ground_truth_pose in GT. rewrite (si_N _ _ _ _ _ _ _ SI), (si_truth _ _ _ _ _ _ _ SI), nth_map_seq in GT by auto. destruct (Nat.ltb_spec t N); [|lia]. injection GT as <-.
  exists (sample_point d t i). pose proof (move_seen d _ idx t i (truth_rigid _ _ _ SO Ht)) as M. change (move (truth_pose (sc_final s) N t)) with (se3_transform (truth_pose (sc_final s) N t)) in M. rewrite M.
  split; auto. split; auto. intros RP. exact (height_over _ (sample_point d t i) RP).
Qed.
Print Assumptions C62_on_planes.
(** A registration filled from a noise-free scene and set to the true final pose
    has the true trajectory and error zero, after any earlier use. *)
Theorem C62_registration : forall k ops r0 d p n N, (forall Q, m4tr Q = Q -> exact4 (k_eigs k) Q) -> Forall reg_ok ops -> reg_run k ops preg_new = Some r0 ->
  (1 <= Z.of_nat n <= 2 ^ 24)%Z -> (Z.of_nat p < 2 ^ 23)%Z -> (2 <= N)%nat -> step_ok (se3_of_vec (d_final d)) N ->
  (forall t i, vz (d_point d t i) = 0) -> exists s r r', create_points d p n N = Some s /\
  set_last_pose (sc_final s) (create_plane_registration s r0) = Some r /\ pr_traj r = sc_truth s /\ get_current_error (k_eigs k) r = Some (0, r').
Proof. exact registration_zero. Qed.
Print Assumptions C62_registration.
Example C62_ex : exists d : draws, step_ok (se3_of_vec (d_final d)) 4 /\ (forall t i, vz (d_point d t i) = 0) /\ v6v (d_final d) <> v3zero /\
  (1 <= Z.of_nat 5 <= 2 ^ 24)%Z /\ (Z.of_nat 100 < 2 ^ 23)%Z.
Proof.
  exists (mkDraws (fun i => mkV6 (mkV3 (INR i) 0 0) v3zero) (mkV6 v3zero (mkV3 1 0 0)) (fun _ => (1, 2)) (fun t i => mkV3 (INR t) (INR i) 0)). cbn [d_final d_point v6v vz].
  split; [left; rewrite C14_ln_of_exp_zero; reflexivity|]. split; [auto|]. split; [unfold v3zero; intros H; injection H; lra | lia].
Qed.
