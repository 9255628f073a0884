(** A PlaneRegistration filled by CreatePoints. *)
Require Import Reals List Arith ZArith Lia Lra Psatz Bool.
From Flocq Require Import Core.
From Verif Require Import Lin LinFacts SO3 SE3 SpecGeom SE3Ops SE3Alg SE3Exp SO3Exp SO3Near SO3Misc SO3Dist Factors3DLn Sums Registration SpecRegistration Optimizer Spectral Planes SpecPlanes PlanesProofs PlanesMore.
From Verif Require Import SpecPlaneReg PlaneRegProofs PlaneRegMore PlaneRegBox CreatePoints CreatePointsFloat CreatePointsProofs PropPlaneReg.
Import ListNotations.
Local Open Scope R_scope.

Lemma index_range i n p : (1 <= Z.of_nat n <= 2 ^ 24)%Z -> (i < p)%nat -> (Z.of_nat p < 2 ^ 23)%Z -> exists k, plane_index i n p = Some k /\ (k < n)%nat.
Proof.
  intros Hn Hi Hp. rewrite index_spec by lia. eexists. split; [reflexivity|].
  pose proof (quot_range i n p Hn Hi Hp) as Q. pose proof (quot_nonneg i n p ltac:(lia) ltac:(lia) ltac:(lia)) as Q0.
  pose proof (Zfloor_lb (quot i n p)) as L. assert (Z : (0 <= Zfloor (quot i n p))%Z) by (apply Zfloor_lub; exact Q0).
  assert (Zfloor (quot i n p) < Z.of_nat n)%Z by (apply lt_IZR; lra). lia.
Qed.
Lemma index_exact i n p : (1 <= n)%nat -> (Z.of_nat (n * p) <= 2 ^ 24)%Z -> (i < p)%nat -> plane_index i n p = Some (i * n / p)%nat.
Proof.
  intros N H Hi. assert (A : (i * n < n * p)%nat) by nia. assert (B : (p <= n * p)%nat) by nia. assert (C : (n <= n * p)%nat) by nia.
  rewrite index_spec by lia. rewrite quot_exact by lia. rewrite Nat2Z.id. reflexivity.
Qed.
Lemma index_mono i j n p a b : (Z.of_nat n <= 2 ^ 24)%Z -> (j < p)%nat -> (Z.of_nat p < 2 ^ 23)%Z -> (i <= j)%nat -> plane_index i n p = Some a -> plane_index j n p = Some b -> (a <= b)%nat.
Proof.
  intros Hn Hj Hp L. rewrite !index_spec by lia. intros A B. injection A as <-. injection B as <-. apply Z2Nat.inj_le; [apply Zfloor_lub, quot_nonneg; lia | apply Zfloor_lub, quot_nonneg; lia|].
  apply Zfloor_le. apply quot_mono; lia.
Qed.
Lemma index_function n p : (1 <= Z.of_nat n <= 2 ^ 24)%Z -> (Z.of_nat p < 2 ^ 23)%Z -> exists idx : nat -> nat,
  (forall i, (i < p)%nat -> plane_index i n p = Some (idx i) /\ (idx i < n)%nat) /\ forall i j, (i <= j)%nat -> (j < p)%nat -> (idx i <= idx j)%nat.
Proof.
  intros Hn Hp. exists (fun i => match plane_index i n p with Some k => k | None => 0%nat end).
  assert (A : forall i, (i < p)%nat -> exists k, plane_index i n p = Some k /\ (k < n)%nat) by (intros; apply index_range; assumption). split.
  - intros i Hi. destruct (A i Hi) as (k & -> & K). auto.
  - intros i j L Hj. destruct (A i ltac:(lia)) as (a & Ea & _). destruct (A j Hj) as (b & Eb & _). rewrite Ea, Eb. apply (index_mono i j n p a b); try assumption; lia.
Qed.
Lemma no_clear_pushes ops : Forall is_push ops -> no_clear ops.
Proof. intros F C. rewrite Forall_forall in F. destruct (F _ C) as (? & ? & ?). discriminate. Qed.
Lemma shape_nth n pts p t : shape n pts p -> nth_error (pl_points p) t = nth_error pts t.
Proof. intros [_ -> _ _]. reflexivity. Qed.
Lemma shape_points n pts p t : shape n pts p -> (t < n)%nat -> get_points t p = nth_error pts t.
Proof. intros [L P _ _] H. unfold get_points. rewrite L, P. destruct (Nat.leb_spec n t); [lia | reflexivity]. Qed.
Lemma combine_maps {A B C} (f : A -> B) (g : A -> C) l : combine (map f l) (map g l) = map (fun x => (f x, g x)) l.
Proof. induction l; cbn; congruence. Qed.
Lemma filter_map {A B} (f : A -> B) P l : filter P (map f l) = map f (filter (fun x => P (f x)) l).
Proof. induction l as [|a l IH]; auto. cbn. destruct (P (f a)); cbn; congruence. Qed.
Lemma height_over P y : rigid P -> v3dot (m3app (mR P) (mkV3 0 0 1)) (v3sub (se3_transform P y) (mt P)) = vz y.
Proof.
  intros [[O _] _]. unfold orthogonal in O. unfold se3_transform. destruct P as [Rm t b c]. cbn [mR mt] in *.
  replace (v3dot (m3app Rm (mkV3 0 0 1)) (v3sub (v3add (m3app Rm y) t) t)) with (v3dot (mkV3 0 0 1) (m3app (m3mul (m3tr Rm) Rm) y)) by (destruct Rm, t, y; lin).
  rewrite O. destruct y; lin.
Qed.
(** ** The registration *)
Definition fill (d : draws) (truth : nat -> M4) (idx : nat -> nat) (p N : nat) (k : nat) : reg_op :=
  RAdd k N (plane_history d truth idx p k (seq 0 N) ++ [Reset]).
Lemma fill_run ke d truth idx p n N P : (forall k, (k < n)%nat -> plane_run (k_eigs ke) (plane_history d truth idx p k (seq 0 N)) (plane_new N) = Some (P k)) ->
  forall ks r, (forall k, In k ks -> (k < n)%nat) -> reg_run ke (map (fill d truth idx p N) ks) r = Some (fold_left (fun r q => add_plane (fst q) (plane_reset (snd q)) r) (map (fun k => (k, P k)) ks) r).
Proof.
  intros H ks. induction ks as [|k ks IH]; intros r I; auto. cbn [map fold_left reg_run fst snd]. unfold fill at 1. cbn [reg_step].
  rewrite run_app, (H k) by (apply I; left; auto). cbn [plane_run plane_step option_map]. apply IH. intros j J. apply I. right; auto.
Qed.
Lemma fill_history d truth idx p N ks : forall h, NoDup (map fst (snd h) ++ ks) ->
  fold_left note (map (fill d truth idx p N) ks) h = (fst h, snd h ++ map (fun k => (k, (N, plane_history d truth idx p k (seq 0 N) ++ [Reset]))) ks).
Proof.
  induction ks as [|k ks IH]; intros [m h] ND; cbn [map fold_left]; [cbn; rewrite app_nil_r; reflexivity|]. unfold fill at 2. cbn [note fst snd].
  assert (KN : known k h = false).
  { unfold known. destruct (existsb _ h) eqn:E; auto. apply existsb_exists in E. destruct E as (q & Q & EQ). apply Nat.eqb_eq in EQ. cbn [snd] in ND. exfalso.
    apply NoDup_remove_2 in ND. apply ND, in_or_app. left. rewrite <- EQ. apply in_map. auto. }
  unfold register. rewrite KN. rewrite IH; cbn [fst snd]; [rewrite <- app_assoc; reflexivity|]. rewrite map_app. cbn [map]. rewrite <- app_assoc. exact ND.
Qed.
Lemma fill_planes ops d truth idx p n N : history (ops ++ RSet n N :: map (fill d truth idx p N) (seq 0 n)) = (N, map (fun k => (k, (N, plane_history d truth idx p k (seq 0 N) ++ [Reset]))) (seq 0 n)).
Proof.
  unfold history. rewrite fold_left_app. cbn [fold_left note]. rewrite fill_history; auto. cbn [snd map app]. apply seq_NoDup.
Qed.
(** a plane through the image of z = 0 *)
Definition image_plane (P : M4) : V4 :=
  let n := v3cross (m3app (mR P) (mkV3 1 0 0)) (m3app (mR P) (mkV3 0 1 0)) in mkV4 n (- v3dot n (mt P)).
Lemma image_plane_at P y : plane_at (image_plane P) (se3_transform P y) = m3det (mR P) * vz y.
Proof. destruct P as [Rm t b c]. unfold plane_at, image_plane, se3_transform. cbn [mR mt]. destruct Rm, t, y. lin. Qed.
Lemma image_plane_nonzero P : 0 < m3det (mR P) -> v4dot (image_plane P) (image_plane P) <> 0.
Proof.
  intros D Z. pose proof (image_plane_at P (mkV3 0 0 1)) as A. cbn [vz] in A.
  assert (image_plane P = v4zero). { destruct (image_plane P) as [[a b c] e]. revert Z. lin_unfold. intros Z. assert (a = 0) by nra. assert (b = 0) by nra. assert (c = 0) by nra. assert (e = 0) by nra. subst. reflexivity. }
  rewrite H in A. replace (plane_at v4zero (se3_transform P (mkV3 0 0 1))) with 0 in A by (generalize (se3_transform P (mkV3 0 0 1)); unfold plane_at; lin). lra.
Qed.
Lemma exp_det xi : 0 < m3det (mR (se3_of_vec xi)).
Proof. rewrite se3_of_vec_block. cbn [mR]. apply (near_rotation_exp (v6w xi)). Qed.
Lemma all_zero tr h : Forall (fun q => least (fun u => cloud_error u tr (used (fst (snd q)) (snd (snd q)))) 0) h -> total_error tr h 0.
Proof. induction 1 as [|[i [n ops]] h L F IH]; [constructor|]. replace 0 with (0 + 0) by ring. constructor; auto. Qed.

Lemma registration_zero ke ops r0 d p n N : (forall Q, m4tr Q = Q -> exact4 (k_eigs ke) Q) -> Forall reg_ok ops -> reg_run ke ops preg_new = Some r0 ->
  (1 <= Z.of_nat n <= 2 ^ 24)%Z -> (Z.of_nat p < 2 ^ 23)%Z -> (2 <= N)%nat -> step_ok (se3_of_vec (d_final d)) N ->
  (forall t i, vz (d_point d t i) = 0) -> exists s r r', create_points d p n N = Some s /\
  set_last_pose (sc_final s) (create_plane_registration s r0) = Some r /\ pr_traj r = sc_truth s /\ get_current_error (k_eigs ke) r = Some (0, r').
Proof.
  intros X OK R0 Hn Hp HN SO Z. destruct (index_function n p Hn Hp) as (idx & I & _). destruct (scene_made (k_eigs ke) d p n N idx I) as (s & E & SI).
  pose proof (si_final _ _ _ _ _ _ _ SI) as EF. set (truth := truth_pose (sc_final s) N). destruct (si_planes _ _ _ _ _ _ _ SI) as (P & EP & RP). fold truth in RP.
  set (prog := ops ++ RSet n N :: map (fill d truth idx p N) (seq 0 n)).
  assert (R1 : reg_run ke prog preg_new = Some (create_plane_registration s r0)).
  { unfold prog. rewrite reg_run_app, R0. cbn [reg_run reg_step]. unfold create_plane_registration. rewrite EP, (si_n _ _ _ _ _ _ _ SI), (si_N _ _ _ _ _ _ _ SI). apply (fill_run ke d truth idx p n N P RP). intros k K. apply in_seq in K. lia. }
  assert (OK1 : Forall reg_ok prog).
  { unfold prog. apply Forall_app. split; auto. constructor; [exact Logic.I|]. apply Forall_map, Forall_forall. intros k _. unfold fill. cbn [reg_ok]. apply no_clear_app. split; [apply no_clear_pushes, history_push | intros [C|[]]; discriminate]. }
  assert (PO : poses_of prog = N) by (unfold poses_of, prog; rewrite fill_planes; reflexivity).
  destruct (C69_set_last_pose ke prog _ (sc_final s) OK1 R1 ltac:(lia)) as (r & SL & LT & T0 & TT & _). rewrite PO in LT, TT.
  assert (TR : pr_traj r = sc_truth s).
  { rewrite (si_truth _ _ _ _ _ _ _ SI). apply nth_error_ext. intros t. destruct (Nat.lt_ge_cases t N) as [Ht | Ht]; [|rewrite !(proj2 (nth_error_None _ _)) by (rewrite ?map_length, ?seq_length; lia); reflexivity]. rewrite nth_map_seq by auto. fold truth. destruct t as [|t].
    - rewrite T0. unfold truth. rewrite truth_first. reflexivity.
    - rewrite TT by lia. unfold truth. rewrite truth_simple. destruct (Nat.eqb_spec N 1); [lia | reflexivity]. }
  assert (R2 : reg_run ke (prog ++ [RLast (sc_final s)]) preg_new = Some r) by (rewrite reg_run_app, R1; cbn [reg_run reg_step]; rewrite SL; reflexivity).
  assert (OK2 : Forall reg_ok (prog ++ [RLast (sc_final s)])) by (apply Forall_app; split; auto; repeat constructor).
  assert (H2 : history (prog ++ [RLast (sc_final s)]) = history prog) by (rewrite history_snoc; reflexivity).
  assert (P2 : poses_of (prog ++ [RLast (sc_final s)]) = N) by (unfold poses_of; rewrite H2; exact PO).
  assert (PL : planes_of (prog ++ [RLast (sc_final s)]) = map (fun k => (k, (N, plane_history d truth idx p k (seq 0 N) ++ [Reset]))) (seq 0 n)) by (unfold planes_of; rewrite H2; unfold prog; rewrite fill_planes; reflexivity).
  destruct (C68_error ke _ r OK2 R2 ltac:(lia)) as [DF ER]. rewrite P2, PL in DF. rewrite PL in ER.
  destruct (proj2 DF) as (e & r' & GE). { unfold fits. apply Forall_map, Forall_forall. intros k _. cbn [fst snd]. lia. }
  exists s, r, r'. split; auto. split; auto. split; auto. rewrite GE. do 2 f_equal.
  destruct (ER e r' GE) as (_ & _ & TE). specialize (TE X). apply (C68_total_unique _ _ _ _ TE). apply all_zero. apply Forall_map, Forall_forall. intros k K. apply in_seq in K. cbn [fst snd].
  rewrite <- (app_nil_r (plane_history d truth idx p k (seq 0 N) ++ [Reset])), <- app_assoc, used_reset, app_nil_r by constructor.
  apply least_zero with (u := image_plane (se3_of_vec (d_plane d k))); [apply image_plane_nonzero, exp_det|].
  intros T l x IC IX. rewrite TR, (si_truth _ _ _ _ _ _ _ SI) in IC. unfold all_pushed in IC. rewrite combine_maps in IC. apply in_map_iff in IC. destruct IC as (t & EQ & IT). injection EQ as <- <-.
  rewrite pushed_history in IX by (auto using seq_NoDup). apply in_map_iff in IX. destruct IX as (i & <- & II). apply filter_In in II. destruct II as [_ II]. apply Nat.eqb_eq in II.
  fold truth. rewrite move_seen by (apply truth_rigid; [rewrite EF; auto | apply in_seq in IT; lia]). rewrite II, image_plane_at. cbn [sample_point vz]. rewrite Z. ring.
Qed.
