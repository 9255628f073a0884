(** The scene made by CreatePoints. *)
Require Import Reals List Arith ZArith Lia Lra Psatz Bool.
From Verif Require Import Lin LinFacts SO3 SE3 SpecGeom SE3Ops SE3Alg SE3Exp Sums Registration SpecRegistration Optimizer Planes SpecPlanes PlanesProofs PlanesMore.
From Verif Require Import SpecPlaneReg PlaneRegProofs PlaneRegMore PlaneRegBox CreatePoints.
Import ListNotations.
Local Open Scope R_scope.

Lemma set_at_map {A} (f : nat -> A) x k n s : (k < n)%nat -> set_at k x (map f (seq s n)) = map (fun j => if Nat.eqb j (s + k) then x else f j) (seq s n).
Proof.
  revert s k. induction n as [|n IH]; intros s k H; [lia|]. cbn [seq map]. destruct k as [|k].
  - cbn [set_at]. rewrite Nat.add_0_r, Nat.eqb_refl. f_equal. apply map_ext_in. intros j I. apply in_seq in I. destruct (Nat.eqb_spec j s); auto; lia.
  - cbn [set_at]. destruct (Nat.eqb_spec s (s + S k)); [lia|]. f_equal. rewrite IH by lia. replace (S s + k)%nat with (s + S k)%nat by lia. reflexivity.
Qed.
Lemma nth_map_seq {A} (f : nat -> A) k n : (k < n)%nat -> nth_error (map f (seq 0 n)) k = Some (f k).
Proof. intros H. rewrite nth_error_map. replace (nth_error (seq 0 n) k) with (Some k); auto. symmetry. rewrite (nth_error_nth' _ 0%nat) by (rewrite seq_length; auto). rewrite seq_nth by auto. auto. Qed.

(** the point (t, i) as the scanner sees it *)
Definition seen_point (d : draws) (T : M4) (idx : nat -> nat) (t i : nat) : V3 :=
  se3_transform (se3_inv T) (se3_transform (se3_of_vec (d_plane d (idx i))) (sample_point d t i)).
Definition pushes (k : nat) (idx : nat -> nat) (pt : nat -> V3) (t : nat) (is : list nat) : list plane_op :=
  flat_map (fun i => if Nat.eqb (idx i) k then [Push (pt i) t] else []) is.
Definition planes_with (n : nat) (P : nat -> plane) : list (nat * plane) := map (fun k => (k, P k)) (seq 0 n).
Definition plane_poses_of (d : draws) (n : nat) : list M4 := map (fun i => se3_of_vec (d_plane d i)) (seq 0 n).

Lemma points_made eigs d p n N T t idx : (t < N)%nat -> forall is xs ids P h,
  (forall i, In i is -> plane_index i n p = Some (idx i) /\ (idx i < n)%nat) ->
  (forall k, Forall is_push (h k)) -> (forall k, (k < n)%nat -> plane_run eigs (h k) (plane_new N) = Some (P k)) -> exists P',
  make_points d p n (plane_poses_of d n) T t is (xs, ids, planes_with n P) = Some (xs ++ map (seen_point d T idx t) is, ids ++ map idx is, planes_with n P') /\
  (forall k, (k < n)%nat -> plane_run eigs (h k ++ pushes k idx (seen_point d T idx t) t is) (plane_new N) = Some (P' k)).
Proof.
  intros Ht is. induction is as [|i is IH]; intros xs ids P h I FP R.
  - exists P. cbn. rewrite !app_nil_r. split; auto. intros k K. rewrite app_nil_r. auto.
  - destruct (I i (or_introl eq_refl)) as [E L]. cbn [make_points make_point]. rewrite E.
    assert (N1 : nth_error (plane_poses_of d n) (idx i) = Some (se3_of_vec (d_plane d (idx i)))) by (unfold plane_poses_of; rewrite nth_map_seq by auto; auto).
    assert (N2 : nth_error (planes_with n P) (idx i) = Some (idx i, P (idx i))) by (unfold planes_with; rewrite nth_map_seq by auto; auto).
    rewrite N1, N2. fold (seen_point d T idx t i). set (x := seen_point d T idx t i).
    assert (NC : no_clear (h (idx i))). { intros C. specialize (FP (idx i)). rewrite Forall_forall in FP. destruct (FP _ C) as (? & ? & ?). discriminate. }
    destruct (run_shape eigs N _ _ NC (R _ L)) as [SH _].
    destruct (push_ok eigs N _ _ (Push x t) SH) as (q & EQ); [eexists; eexists; reflexivity|]. cbn [plane_step] in EQ. rewrite EQ.
    set (P1 := fun j => if Nat.eqb j (idx i) then q else P j).
    replace (set_at (idx i) (idx i, q) (planes_with n P)) with (planes_with n P1).
    2:{ unfold planes_with. rewrite set_at_map by auto. apply map_ext. intros j. unfold P1. cbn [Nat.add]. destruct (Nat.eqb_spec j (idx i)); subst; auto. }
    destruct (IH (xs ++ [x]) (ids ++ [idx i]) P1 (fun k => h k ++ if Nat.eqb (idx i) k then [Push x t] else [])) as (P' & A & B).
    + intros j J. apply I. right; auto.
    + intros k. apply Forall_app. split; auto. destruct (Nat.eqb _ k); repeat constructor. eexists; eexists; reflexivity.
    + intros k K. rewrite run_app, (R k K). unfold P1. rewrite (Nat.eqb_sym k). destruct (Nat.eqb_spec (idx i) k) as [<-|]; cbn [plane_run plane_step]; auto. rewrite EQ. auto.
    + exists P'. rewrite A. split; [rewrite <- !app_assoc; reflexivity|]. intros k K. rewrite <- (B k K). unfold pushes. cbn [flat_map]. rewrite <- app_assoc. reflexivity.
Qed.
(** what plane k receives over the scans ts *)
Definition plane_history (d : draws) (truth : nat -> M4) (idx : nat -> nat) (p k : nat) (ts : list nat) : list plane_op :=
  flat_map (fun t => pushes k idx (seen_point d (truth t) idx t) t (seq 0 p)) ts.
Lemma pushes_push k idx pt t is : Forall is_push (pushes k idx pt t is).
Proof. unfold pushes. induction is as [|i is IH]; cbn [flat_map]; [constructor|]. apply Forall_app. split; auto. destruct (Nat.eqb _ _); repeat constructor. eexists; eexists; reflexivity. Qed.
Lemma history_push d truth idx p k ts : Forall is_push (plane_history d truth idx p k ts).
Proof. unfold plane_history. induction ts as [|t ts IH]; cbn [flat_map]; [constructor|]. apply Forall_app. split; auto. apply pushes_push. Qed.
Lemma scans_made eigs d p n N truth idx : (forall i, (i < p)%nat -> plane_index i n p = Some (idx i) /\ (idx i < n)%nat) ->
  forall ts X ids P h, (forall t, In t ts -> (t < N)%nat) ->
  (forall k, Forall is_push (h k)) -> (forall k, (k < n)%nat -> plane_run eigs (h k) (plane_new N) = Some (P k)) -> exists P',
  make_scans d p n (plane_poses_of d n) (map truth (seq 0 N)) ts (X, ids, planes_with n P) =
    Some (X ++ map (fun t => map (seen_point d (truth t) idx t) (seq 0 p)) ts, ids ++ map (fun _ => map idx (seq 0 p)) ts, planes_with n P') /\
  (forall k, (k < n)%nat -> plane_run eigs (h k ++ plane_history d truth idx p k ts) (plane_new N) = Some (P' k)).
Proof.
  intros I ts. induction ts as [|t ts IH]; intros X ids P h TS FP R.
  - exists P. cbn. rewrite !app_nil_r. split; auto. intros k K. rewrite app_nil_r. auto.
  - assert (Ht : (t < N)%nat) by (apply TS; left; auto). cbn [make_scans]. rewrite nth_map_seq by auto.
    destruct (points_made eigs d p n N (truth t) t idx Ht (seq 0 p) [] [] P h) as (P1 & A & B); auto.
    { intros i J. apply in_seq in J. apply I. lia. }
    rewrite A. cbn [app].
    destruct (IH (X ++ [map (seen_point d (truth t) idx t) (seq 0 p)]) (ids ++ [map idx (seq 0 p)]) P1 (fun k => h k ++ pushes k idx (seen_point d (truth t) idx t) t (seq 0 p))) as (P' & C & D).
    + intros u J. apply TS. right; auto.
    + intros k. apply Forall_app. split; auto. apply pushes_push.
    + exact B.
    + exists P'. rewrite C. split; [cbn [map]; rewrite <- !app_assoc; reflexivity|]. intros k K. rewrite <- (D k K). unfold plane_history. cbn [flat_map]. rewrite <- app_assoc. reflexivity.
Qed.
Record scene_is (eigs : M4 -> eigen4) (d : draws) (p n N : nat) (idx : nat -> nat) (s : scene) : Prop := {
  si_n : sc_nplanes s = n; si_N : sc_nposes s = N; si_final : sc_final s = se3_of_vec (d_final d);
  si_truth : sc_truth s = map (truth_pose (sc_final s) N) (seq 0 N);
  si_poses : sc_plane_poses s = plane_poses_of d n;
  si_X : sc_X s = map (fun t => map (seen_point d (truth_pose (sc_final s) N t) idx t) (seq 0 p)) (seq 0 N);
  si_ids : sc_ids s = map (fun _ => map idx (seq 0 p)) (seq 0 N);
  si_planes : exists P, sc_planes s = planes_with n P /\ forall k, (k < n)%nat -> plane_run eigs (plane_history d (truth_pose (sc_final s) N) idx p k (seq 0 N)) (plane_new N) = Some (P k) }.
Lemma scene_made eigs d p n N idx : (forall i, (i < p)%nat -> plane_index i n p = Some (idx i) /\ (idx i < n)%nat) ->
  exists s, create_points d p n N = Some s /\ scene_is eigs d p n N idx s.
Proof.
  intros I. unfold create_points. fold (plane_poses_of d n). change (map (fun i => (i, plane_new N)) (seq 0 n)) with (planes_with n (fun _ => plane_new N)).
  destruct (scans_made eigs d p n N (truth_pose (se3_of_vec (d_final d)) N) idx I (seq 0 N) [] [] (fun _ => plane_new N) (fun _ => [])) as (P & A & B); auto.
  { intros t J. apply in_seq in J. lia. }
  rewrite A. eexists. split; [reflexivity|]. constructor; try reflexivity. exists P. split; auto.
Qed.
(** an index out of range is met *)
Lemma points_fail d p n T t i : plane_index i n p = None \/ (exists k, plane_index i n p = Some k /\ (n <= k)%nat) -> forall is st, In i is -> make_points d p n (plane_poses_of d n) T t is st = None.
Proof.
  intros H is. induction is as [|j is IH]; intros st I; [destruct I|]. cbn [make_points]. destruct (make_point d p n (plane_poses_of d n) T t j st) as [st'|] eqn:E; auto.
  destruct I as [->|I]; [|auto]. exfalso. unfold make_point in E. destruct st as [[xs ids] pl]. destruct H as [H|(k & H & K)]; rewrite H in E; [discriminate|].
  replace (nth_error (plane_poses_of d n) k) with (@None M4) in E; [discriminate|]. symmetry. apply nth_error_None. unfold plane_poses_of. rewrite map_length, seq_length. auto.
Qed.
Lemma create_fails d p n N i : (1 <= N)%nat -> (i < p)%nat -> (exists k, plane_index i n p = Some k /\ (n <= k)%nat) -> create_points d p n N = None.
Proof.
  intros HN Hi H. unfold create_points. fold (plane_poses_of d n). destruct N as [|N]; [lia|]. cbn [seq map make_scans nth_error].
  rewrite (points_fail d p n _ _ i); auto. apply in_seq. lia.
Qed.

(** ** Ground truth *)
Lemma truth_simple F N t : truth_pose F N t = se3_of_vec (v6scal (if (N =? 1)%nat then 0 else INR t / INR (N - 1)) (se3_ln_vee F)).
Proof.
  unfold truth_pose. assert (E : se3_inv m4id = m4id) by (unfold se3_inv, m4id; cbn [mR mt]; apply m4_eq; lin). rewrite E, !m4mul_id_r. reflexivity.
Qed.
Lemma v6scal_0 xi : v6scal 0 xi = mkV6 v3zero v3zero. Proof. lin. Qed.
Lemma v6scal_1 xi : v6scal 1 xi = xi. Proof. lin. Qed.
Lemma exp_zero : se3_of_vec (mkV6 v3zero v3zero) = m4id.
Proof. rewrite se3_exp_zero_rot. reflexivity. Qed.
Lemma truth_first F N : truth_pose F N 0 = m4id.
Proof. rewrite truth_simple. replace (if (N =? 1)%nat then 0 else INR 0 / INR (N - 1)) with 0; [rewrite v6scal_0; apply exp_zero|]. destruct (N =? 1)%nat; auto. cbn [INR]. unfold Rdiv. ring. Qed.
Lemma truth_last F N : (2 <= N)%nat -> truth_pose F N (N - 1) = se3_of_vec (se3_ln_vee F).
Proof.
  intros H. rewrite truth_simple. destruct (Nat.eqb_spec N 1); [lia|]. replace (INR (N - 1) / INR (N - 1)) with 1 by (field; apply not_0_INR; lia). rewrite v6scal_1. reflexivity.
Qed.
(** the rotation between two poses is zero or at least 1e-5 *)
Definition step_ok (F : M4) (N : nat) : Prop :=
  v6w (se3_ln_vee F) = v3zero \/ INR (N - 1) / 100000 <= v3norm (v6w (se3_ln_vee F)).
Lemma truth_rigid F N t : step_ok F N -> (t < N)%nat -> rigid (truth_pose F N t).
Proof.
  intros SO Ht. destruct t as [|t]; [rewrite truth_first; apply rigid_id|]. rewrite truth_simple. destruct (Nat.eqb_spec N 1); [lia|]. apply se3_exp_rigid.
  assert (P : 0 < INR (N - 1)) by (apply lt_0_INR; lia). assert (Q : 1 <= INR (S t)) by (rewrite S_INR; pose proof (pos_INR t); lra).
  unfold v6scal; cbn [v6w]. destruct SO as [Z|Z].
  - left. rewrite Z. lin.
  - right. rewrite v3norm_scal, Rabs_pos_eq by (apply Rmult_le_pos; [lra | left; apply Rinv_0_lt_compat; auto]).
    apply Rle_trans with (1 / INR (N - 1) * (INR (N - 1) / 100000)); [right; field; lra|].
    apply Rmult_le_compat; auto.
    + left. apply Rmult_lt_0_compat; [lra | apply Rinv_0_lt_compat; auto].
    + left. apply Rmult_lt_0_compat; [auto | lra].
    + apply Rmult_le_compat_r; [left; apply Rinv_0_lt_compat; auto | auto].
Qed.
Lemma move_seen d T idx t i : rigid T -> move T (seen_point d T idx t i) = se3_transform (se3_of_vec (d_plane d (idx i))) (sample_point d t i).
Proof. intros H. unfold seen_point. change (move T) with (se3_transform T). apply transform_inv_r; auto. Qed.

(** ** Numbers of points *)
Lemma filter_interval a b p : (a <= b)%nat -> (b <= p)%nat -> length (filter (fun i => (a <=? i)%nat && (i <? b)%nat) (seq 0 p)) = (b - a)%nat.
Proof.
  intros A B. replace p with (a + ((b - a) + (p - b)))%nat by lia. rewrite !seq_app, !filter_app, !app_length. cbn [Nat.add].
  assert (Z : forall s c, (forall i, (s <= i < s + c)%nat -> (a <=? i)%nat && (i <? b)%nat = false) -> length (filter (fun i => (a <=? i)%nat && (i <? b)%nat) (seq s c)) = 0%nat).
  { intros s c. revert s. induction c as [|c IH]; intros s H; auto. cbn [seq filter]. rewrite H by lia. apply IH. intros; apply H; lia. }
  assert (F : forall s c, (forall i, (s <= i < s + c)%nat -> (a <=? i)%nat && (i <? b)%nat = true) -> length (filter (fun i => (a <=? i)%nat && (i <? b)%nat) (seq s c)) = c).
  { intros s c. revert s. induction c as [|c IH]; intros s H; auto. cbn [seq filter]. rewrite H by lia. cbn [length]. f_equal. apply IH. intros; apply H; lia. }
  rewrite (Z 0%nat a), (F a (b - a)%nat), (Z (a + (b - a))%nat (p - b)%nat); [lia| | |].
  - intros i Hi. destruct (Nat.ltb_spec i b); [lia|]. apply andb_false_r.
  - intros i Hi. apply andb_true_intro. split; [apply Nat.leb_le; lia | apply Nat.ltb_lt; lia].
  - intros i Hi. destruct (Nat.leb_spec a i); [lia|]. reflexivity.
Qed.
Definition ceil_div (m n : nat) : nat := ((m + (n - 1)) / n)%nat.
Lemma ceil_le m n i : (1 <= n)%nat -> (ceil_div m n <= i <-> m <= i * n)%nat.
Proof.
  intros H. unfold ceil_div. pose proof (Nat.div_mod (m + (n - 1)) n ltac:(lia)) as E. pose proof (Nat.mod_upper_bound (m + (n - 1)) n ltac:(lia)) as B.
  set (c := ((m + (n - 1)) / n)%nat) in *. split; intros L; nia.
Qed.
Lemma div_eq_iff m p k : (1 <= p)%nat -> (m / p = k <-> k * p <= m < (k + 1) * p)%nat.
Proof.
  intros H. split.
  - intros <-. pose proof (Nat.div_mod m p ltac:(lia)) as E. pose proof (Nat.mod_upper_bound m p ltac:(lia)). nia.
  - intros [A B]. symmetry. apply Nat.div_unique with (m - k * p)%nat; nia.
Qed.
Lemma count_plane n p k : (1 <= p)%nat -> (k < n)%nat ->
  let c := length (filter (fun i => Nat.eqb (i * n / p) k) (seq 0 p)) in (p / n <= c <= p / n + 1)%nat.
Proof.
  intros P K. cbv zeta. rewrite (filter_ext_in _ (fun i => (ceil_div (k * p) n <=? i)%nat && (i <? ceil_div ((k + 1) * p) n)%nat)).
  2:{ intros i _. apply eq_true_iff_eq. rewrite Nat.eqb_eq, andb_true_iff, Nat.leb_le, Nat.ltb_lt, (div_eq_iff _ _ _ P), ceil_le by lia.
      split; intros [A B]; split; auto.
      - apply Nat.nle_gt. intros C. apply ceil_le in C; lia.
      - apply Nat.nle_gt. intros C. apply ceil_le in C; lia. }
  assert (M : (ceil_div (k * p) n <= ceil_div ((k + 1) * p) n)%nat) by (apply Nat.div_le_mono; lia).
  assert (U : (ceil_div ((k + 1) * p) n <= p)%nat) by (apply ceil_le; nia).
  rewrite filter_interval by auto. unfold ceil_div in *.
  pose proof (Nat.div_mod (k * p + (n - 1)) n ltac:(lia)) as E1. pose proof (Nat.mod_upper_bound (k * p + (n - 1)) n ltac:(lia)) as B1.
  pose proof (Nat.div_mod ((k + 1) * p + (n - 1)) n ltac:(lia)) as E2. pose proof (Nat.mod_upper_bound ((k + 1) * p + (n - 1)) n ltac:(lia)) as B2.
  pose proof (Nat.div_mod p n ltac:(lia)) as E3. pose proof (Nat.mod_upper_bound p n ltac:(lia)) as B3.
  set (a := ((k * p + (n - 1)) / n)%nat) in *. set (b := (((k + 1) * p + (n - 1)) / n)%nat) in *. set (q := (p / n)%nat) in *. nia.
Qed.
Lemma pushed_pushes k idx pt t u is : pushed (pushes k idx pt t is) u = if Nat.eqb t u then map pt (filter (fun i => Nat.eqb (idx i) k) is) else [].
Proof.
  unfold pushes. induction is as [|i is IH]; cbn [flat_map filter].
  - destruct (Nat.eqb t u); auto.
  - rewrite pushed_app, IH. destruct (Nat.eqb (idx i) k); cbn [pushed flat_map app]; destruct (Nat.eqb t u); reflexivity.
Qed.
Lemma pushed_history d truth idx p k ts t : NoDup ts -> In t ts -> pushed (plane_history d truth idx p k ts) t = map (seen_point d (truth t) idx t) (filter (fun i => Nat.eqb (idx i) k) (seq 0 p)).
Proof.
  unfold plane_history. induction ts as [|u ts IH]; intros ND I; [destruct I|]. cbn [flat_map]. rewrite pushed_app, pushed_pushes. apply NoDup_cons_iff in ND. destruct ND as [NI ND].
  destruct (Nat.eqb_spec u t) as [->|NE].
  - assert (Z : pushed (flat_map (fun t0 => pushes k idx (seen_point d (truth t0) idx t0) t0 (seq 0 p)) ts) t = []); [|rewrite Z; apply app_nil_r].
    clear - NI. induction ts as [|v ts IH]; auto. cbn [flat_map]. rewrite pushed_app, pushed_pushes, IH by (intros C; apply NI; right; auto). destruct (Nat.eqb_spec v t) as [->|]; auto. exfalso; apply NI; left; auto.
  - destruct I as [->|I]; [congruence|]. apply IH; auto.
Qed.
