(** Proofs for C94. *)
Require Import Reals List Arith Lia Lra Psatz Bool.
From Verif Require Import Lin LinFacts SO3 SE3 SpecGeom SO3Exp SE3Ops SE3Alg Sums.
From Verif Require Import Registration SpecRegistration ArunProofs RegistrationMore Optimizer Planes SpecPlanes PlanesProofs PlanesEigen PlanesMore.
From Verif Require Import SpecPlaneReg PlaneRegProofs PlaneRegMore PropPlaneReg SpecPlaneFrame.
Import ListNotations.
Local Open Scope R_scope.

(** ** The points in use *)
Lemma pushed_frame G ops t : pushed (map (op_in_frame G) ops) t = map (move G) (pushed ops t).
Proof. induction ops as [|o ops IH]; [reflexivity|]. unfold pushed in *. cbn [map flat_map]. rewrite IH, map_app. f_equal. destruct o; cbn; auto. destruct (Nat.eqb _ _); reflexivity. Qed.
Lemma all_pushed_frame G n ops : all_pushed n (map (op_in_frame G) ops) = map (map (move G)) (all_pushed n ops).
Proof. unfold all_pushed. rewrite map_map. apply map_ext. intros t. apply pushed_frame. Qed.
Lemma snapshot_frame G n : forall rops, snapshot n (map (op_in_frame G) rops) = option_map (map (map (move G))) (snapshot n rops).
Proof.
  induction rops as [|o rops IH]; [reflexivity|]. cbn [map snapshot]. assert (A : all_pushed n (rev (map (op_in_frame G) rops)) = map (map (move G)) (all_pushed n (rev rops))) by (rewrite <- map_rev; apply all_pushed_frame).
  destruct o as [x t|[|]|tr|tr t|t| |]; cbn [op_in_frame]; rewrite ?IH, ?A; try reflexivity; destruct (snapshot n rops); reflexivity.
Qed.
Lemma used_frame G n ops : used n (map (op_in_frame G) ops) = map (map (move G)) (used n ops).
Proof. unfold used. rewrite <- map_rev, snapshot_frame. destruct (snapshot n (rev ops)); cbn [option_map]; [reflexivity | apply all_pushed_frame]. Qed.
Definition entry_frame (G : M4) (q : nat * (nat * list plane_op)) := (fst q, (fst (snd q), map (op_in_frame G) (snd (snd q)))).
Lemma known_frame G i h : known i (map (entry_frame G) h) = known i h.
Proof. induction h as [|q h IH]; [reflexivity|]. unfold known in *. cbn [map existsb entry_frame fst]. rewrite IH. reflexivity. Qed.
Lemma note_frame G h o : note (fst h, map (entry_frame G) (snd h)) (call_in_frame G o) = (fst (note h o), map (entry_frame G) (snd (note h o))).
Proof.
  assert (EX : forall sel o' o2, o2 = op_in_frame G o' -> forall l, extend sel o2 (map (entry_frame G) l) = map (entry_frame G) (extend sel o' l)).
  { intros sel o' o2 -> l. unfold extend. rewrite !map_map. apply map_ext. intros q. unfold entry_frame at 1. cbn [fst snd]. destruct (sel (fst q)); [|reflexivity]. unfold entry_frame. cbn [fst snd]. rewrite map_app. reflexivity. }
  assert (RG : forall i n ops l, register i n (map (op_in_frame G) ops) (map (entry_frame G) l) = map (entry_frame G) (register i n ops l)).
  { intros. unfold register. rewrite known_frame. destruct (known i l); [reflexivity|]. rewrite map_app. reflexivity. }
  destruct o; cbn [note call_in_frame fst snd map]; try reflexivity; try (f_equal; apply EX; reflexivity).
  - f_equal. exact (RG i (fst h) [] (snd h)).
  - f_equal. apply RG.
Qed.
Lemma fold_frame G : forall ops h, fold_left note (map (call_in_frame G) ops) (fst h, map (entry_frame G) (snd h)) = (fst (fold_left note ops h), map (entry_frame G) (snd (fold_left note ops h))).
Proof. induction ops as [|o ops IH]; intros h; [reflexivity|]. cbn [map fold_left]. rewrite note_frame. apply IH. Qed.
Lemma planes_frame G ops : planes_of (map (call_in_frame G) ops) = map (entry_frame G) (planes_of ops).
Proof. unfold planes_of, history. pose proof (fold_frame G ops (0%nat, [])) as H. cbn [fst snd map] in H. rewrite H. reflexivity. Qed.
Lemma poses_frame G ops : poses_of (map (call_in_frame G) ops) = poses_of ops.
Proof. unfold poses_of, history. pose proof (fold_frame G ops (0%nat, [])) as H. cbn [fst snd map] in H. rewrite H. reflexivity. Qed.
Lemma ok_frame G ops : Forall reg_ok ops -> Forall reg_ok (map (call_in_frame G) ops).
Proof.
  intros F. apply Forall_map. eapply Forall_impl; [|exact F]. intros o. destruct o; cbn; auto. unfold no_clear. intros N I. apply N. apply in_map_iff in I. destruct I as (o & E & I). destruct o; cbn in E; try discriminate E. exact I.
Qed.
(** ** The plane equations *)
Definition plane_in (G : M4) (u : V4) : V4 := mkV4 (m3app (mR G) (v4h u)) (v4l u - v3dot (m3app (mR G) (v4h u)) (mt G)).
Lemma rotation_dot A u v : rotation A -> v3dot (m3app A u) (m3app A v) = v3dot u v.
Proof. intros [O _]. unfold orthogonal in O. rewrite v3dot_app, <- m3app_mul, O, m3app_id. reflexivity. Qed.
Lemma plane_at_frame G u x : rotation (mR G) -> plane_at (plane_in G u) (move G x) = plane_at u x.
Proof.
  intros O. unfold plane_at, plane_in, move. cbn [v4h v4l]. pose proof (rotation_dot (mR G) (v4h u) x O) as D.
  set (a := m3app (mR G) (v4h u)) in *. set (b := m3app (mR G) x) in *. rewrite <- D. clearbody a b. generalize (v4l u) (mt G). clear. intros l t. lin.
Qed.
Lemma move_mul A B x : hom4 B -> move (m4mul A B) x = move A (move B x).
Proof. intros [E F]. destruct B as [BR Bt Bb Bc]. cbn in E, F. subst. unfold move. lin. Qed.
Lemma inv_hom G : hom4 (se3_inv G). Proof. split; reflexivity. Qed.
Lemma move_inv G x : rotation (mR G) -> move (se3_inv G) (move G x) = x.
Proof.
  intros [O _]. unfold orthogonal in O. unfold move, se3_inv. cbn [mR mt]. rewrite m3app_add, <- m3app_mul, O, m3app_id. set (A := m3tr (mR G)). generalize (mt G). clearbody A. clear. intros t. lin.
Qed.
Lemma move_frame G T x : rotation (mR G) -> hom4 T -> move (in_frame G T) (move G x) = move G (move T x).
Proof. intros O H. unfold in_frame. rewrite move_mul by apply inv_hom. rewrite move_inv by exact O. apply move_mul. exact H. Qed.
Lemma combine_maps {A B C D} (f : A -> C) (g : B -> D) : forall a b, combine (map f a) (map g b) = map (fun q => (f (fst q), g (snd q))) (combine a b).
Proof. induction a as [|x a IH]; intros [|y b]; cbn; auto. f_equal. apply IH. Qed.
Lemma cloud_frame G u tr pts : rotation (mR G) -> Forall hom4 tr -> cloud_error (plane_in G u) (map (in_frame G) tr) (map (map (move G)) pts) = cloud_error u tr pts.
Proof.
  intros O F. unfold cloud_error. rewrite combine_maps, lsum_map. apply lsum_ext. intros [T l] I. cbn [fst snd]. rewrite lsum_map. apply lsum_ext. intros x _.
  rewrite Forall_forall in F. rewrite move_frame, plane_at_frame by (auto; apply F; eapply in_combine_l; eauto). reflexivity.
Qed.
(** ** Bounds *)
Definition growth (v : V3) : R := (1 + sqrt (v3dot v v)) * (1 + sqrt (v3dot v v)).
Lemma sq_nonneg (v : V3) : 0 <= v3dot v v. Proof. destruct v as [x y z]. unfold v3dot. cbn. nra. Qed.
Lemma growth_ge v : 1 <= growth v. Proof. unfold growth. pose proof (sqrt_pos (v3dot v v)). nra. Qed.
Lemma cauchy (a b : V3) : v3dot a b * v3dot a b <= v3dot a a * v3dot b b.
Proof. destruct a as [a1 a2 a3], b as [b1 b2 b3]. unfold v3dot. cbn. pose proof (Rle_0_sqr (a1 * b2 - a2 * b1)). pose proof (Rle_0_sqr (a1 * b3 - a3 * b1)). pose proof (Rle_0_sqr (a2 * b3 - a3 * b2)). unfold Rsqr in *. nra. Qed.
Lemma length_grows (n v : V3) d : v3dot n n + d * d <= growth v * (v3dot n n + (d - v3dot n v) * (d - v3dot n v)).
Proof.
  unfold growth. set (w := sqrt (v3dot v v)). assert (W : 0 <= w) by apply sqrt_pos. assert (WW : w * w = v3dot v v) by (apply sqrt_sqrt, sq_nonneg).
  pose proof (cauchy n v) as C. rewrite <- WW in C. set (p := v3dot n v) in *. pose proof (sq_nonneg n) as N. set (a := v3dot n n) in *. clearbody a p w. set (b := d - p). replace d with (b + p) by (unfold b; ring). clearbody b. clear WW v.
  assert (Q : 2 * b * p <= w * (a + b * b)).
  { assert (S2 : (2 * b * p) * (2 * b * p) <= (w * (a + b * b)) * (w * (a + b * b))).
    { apply Rle_trans with (4 * (b * b) * (a * (w * w))); [nra|]. assert (0 <= w * w) by nra. assert (4 * (b * b) * a <= (a + b * b) * (a + b * b)) by (pose proof (Rle_0_sqr (a - b * b)); unfold Rsqr in *; nra). nra. }
    assert (P : 0 <= w * (a + b * b)) by (apply Rmult_le_pos; [exact W | nra]). destruct (Rle_dec (2 * b * p) (w * (a + b * b))); auto. nra. }
  assert (p * p <= w * w * (a + b * b)) by (assert (0 <= w * w) by nra; nra). assert (0 <= w * (a + b * b)) by (apply Rmult_le_pos; nra). nra.
Qed.
Lemma plane_in_length G u : rotation (mR G) -> unit4 u -> 1 <= growth (mt G) * v4dot (plane_in G u) (plane_in G u).
Proof.
  intros O U. unfold unit4, v4dot in U. pose proof (length_grows (m3app (mR G) (v4h u)) (mt G) (v4l u)) as L. rewrite (rotation_dot _ _ _ O), U in L. unfold v4dot, plane_in. cbn [v4h v4l]. rewrite (rotation_dot _ _ _ O). exact L.
Qed.
Lemma least_below tr pts e u k : least (fun u => cloud_error u tr pts) e -> 0 < k -> 1 <= k * v4dot u u -> e <= k * cloud_error u tr pts.
Proof.
  intros [_ L] K U. set (q := v4dot u u) in *. assert (Q : 0 < q) by (destruct (Rlt_dec 0 q); auto; nra). pose proof (sqrt_lt_R0 q Q) as S. assert (SS : sqrt q * sqrt q = q) by (apply sqrt_sqrt; lra).
  specialize (L (v4scal (/ sqrt q) u)). assert (UN : unit4 (v4scal (/ sqrt q) u)).
  { unfold unit4. replace (v4dot (v4scal (/ sqrt q) u) (v4scal (/ sqrt q) u)) with (/ (sqrt q * sqrt q) * q); [rewrite SS; field; lra|]. unfold q, v4dot, v4scal, v3dot, v3scal. cbn. field. apply Rgt_not_eq. exact S. }
  specialize (L UN). rewrite cloud_scal in L. pose proof (cloud_nonneg u tr pts) as C. apply Rle_trans with (1 := L). apply Rmult_le_compat_r; [exact C|].
  replace (/ sqrt q * / sqrt q) with (/ q) by (rewrite <- Rinv_mult, SS; reflexivity). apply Rmult_le_reg_r with q; [exact Q|]. rewrite Rinv_l by lra. exact U.
Qed.
Lemma least_frame G tr pts e e' : rotation (mR G) -> Forall hom4 tr -> least (fun u => cloud_error u tr pts) e -> least (fun u => cloud_error u (map (in_frame G) tr) (map (map (move G)) pts)) e' ->
  e' <= growth (mt G) * e.
Proof.
  intros O F [(u & U & E) _] L. cbv beta in E. rewrite <- E, <- (cloud_frame G u tr pts O F). pose proof (growth_ge (mt G)). eapply least_below; [exact L | lra | apply plane_in_length; auto].
Qed.
Lemma total_frame G tr : rotation (mR G) -> Forall hom4 tr -> forall h e e', total_error tr h e -> total_error (map (in_frame G) tr) (map (entry_frame G) h) e' -> e' <= growth (mt G) * e.
Proof.
  intros O F h e e' T. revert e'. induction T as [|i n ops h e s L T IH]; intros e' T'; inversion T'; subst; [lra|]. rewrite used_frame in *. rewrite Rmult_plus_distr_l. apply Rplus_le_compat; [eapply least_frame; eauto | apply IH; assumption].
Qed.
Lemma growth_opp v : growth (v3scal (-1) v) = growth v.
Proof. unfold growth. replace (v3dot (v3scal (-1) v) (v3scal (-1) v)) with (v3dot v v); [reflexivity|]. destruct v as [x y z]. unfold v3dot, v3scal. cbn. ring. Qed.
Lemma plane_back G u : rotation (mR G) -> exists w, plane_in G w = u /\ (unit4 u -> 1 <= growth (mt G) * v4dot w w).
Proof.
  intros O. pose proof (rotation_rinv (mR G) O) as O2. exists (mkV4 (m3app (m3tr (mR G)) (v4h u)) (v4l u + v3dot (v4h u) (mt G))). split.
  - unfold plane_in. cbn [v4h v4l]. rewrite <- m3app_mul, O2, m3app_id. destruct u as [h l]. cbn [v4h v4l]. f_equal. ring.
  - intros U. unfold unit4, v4dot in *. cbn [v4h v4l]. rewrite v3dot_app, <- m3app_mul. replace (m3mul (m3tr (m3tr (mR G))) (m3tr (mR G))) with m3id by (rewrite <- O2; f_equal; destruct (mR G); reflexivity). rewrite m3app_id.
    pose proof (length_grows (v4h u) (v3scal (-1) (mt G)) (v4l u)) as L. rewrite U, growth_opp in L. replace (v4l u - v3dot (v4h u) (v3scal (-1) (mt G))) with (v4l u + v3dot (v4h u) (mt G)) in L; [exact L|].
    generalize (v4h u) (mt G). clear. intros a b. destruct a as [a1 a2 a3], b as [b1 b2 b3]. unfold v3dot, v3scal. cbn. ring.
Qed.
Lemma least_back G tr pts e e' : rotation (mR G) -> Forall hom4 tr -> least (fun u => cloud_error u tr pts) e -> least (fun u => cloud_error u (map (in_frame G) tr) (map (map (move G)) pts)) e' ->
  e <= growth (mt G) * e'.
Proof.
  intros O F L [(u & U & E) _]. cbv beta in E. destruct (plane_back G u O) as (w & <- & W). rewrite cloud_frame in E by auto. rewrite <- E. pose proof (growth_ge (mt G)). eapply least_below; [exact L | lra | auto].
Qed.
Lemma total_back G tr : rotation (mR G) -> Forall hom4 tr -> forall h e e', total_error tr h e -> total_error (map (in_frame G) tr) (map (entry_frame G) h) e' -> e <= growth (mt G) * e'.
Proof.
  intros O F h e e' T. revert e'. induction T as [|i n ops h e s L T IH]; intros e' T'; inversion T'; subst; [lra|]. rewrite used_frame in *. rewrite Rmult_plus_distr_l. apply Rplus_le_compat; [eapply least_back; eauto | apply IH; assumption].
Qed.
(** ** Far away *)
Lemma shift_rotation v : rotation (mR (shift v)). Proof. exact rotation_id. Qed.
Lemma least_far v s tr pts e' : v3dot v v = 1 -> Forall hom4 tr -> least (fun u => cloud_error u (map (in_frame (shift (v3scal s v))) tr) (map (map (move (shift (v3scal s v)))) pts)) e' ->
  (1 + s * s) * e' <= cloud_error (mkV4 v 0) tr pts.
Proof.
  intros V F L. set (G := shift (v3scal s v)) in *. pose proof (shift_rotation (v3scal s v)) as O. fold G in O. rewrite <- (cloud_frame G (mkV4 v 0) tr pts O F).
  assert (Q : v4dot (plane_in G (mkV4 v 0)) (plane_in G (mkV4 v 0)) = 1 + s * s).
  { unfold v4dot, plane_in. cbn [v4h v4l]. rewrite (rotation_dot _ _ _ O), V. unfold G, shift, se3_of_Rt. cbn [mR mt]. rewrite m3app_id. replace (v3dot v (v3scal s v)) with (s * v3dot v v); [rewrite V; ring|]. destruct v as [x y z]. unfold v3dot, v3scal. cbn. ring. }
  assert (P : 0 < 1 + s * s) by nra. pose proof (least_below _ _ _ (plane_in G (mkV4 v 0)) (/ (1 + s * s)) L (Rinv_0_lt_compat _ P)) as B. rewrite Q in B. rewrite Rinv_l in B by lra. specialize (B (Rle_refl 1)).
  apply Rmult_le_compat_l with (r := 1 + s * s) in B; [|lra]. rewrite <- Rmult_assoc, Rinv_r, Rmult_1_l in B by lra. exact B.
Qed.
Lemma total_far v s tr : v3dot v v = 1 -> Forall hom4 tr -> forall h e', total_error (map (in_frame (shift (v3scal s v))) tr) (map (entry_frame (shift (v3scal s v))) h) e' ->
  (1 + s * s) * e' <= misfit tr h (fun _ => mkV4 v 0).
Proof.
  intros V F. induction h as [|[i [n ops]] h IH]; intros e' T'; inversion T'; subst; unfold misfit in *; [unfold lsum; cbn [fold_right]; rewrite Rmult_0_r; apply Rle_refl|]. rewrite used_frame in *. cbn [lsum map fold_right fst snd]. rewrite Rmult_plus_distr_l. unfold lsum. cbn [map fold_right fst snd]. apply Rplus_le_compat; [eapply least_far; eauto | apply IH; assumption].
Qed.
