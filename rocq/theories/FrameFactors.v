(** The planar factor classes seen from two frames (C79). *)
Require Import Reals List Arith Lia Lra.
From Verif Require Import Lin LinFacts SO3 Angle AngleProofs Nodes Robust Graph Sums Solve SpecSolve SolveSums Session Factors SpecFactors FactorsPlanar FactorsDer SpecFrame.
Import ListNotations.
Local Open Scope R_scope.

Lemma moved_trig g p p' : moved g (P2 p) (P2 p') ->
  cos (vz p') = cos (vz p) * cos (fr_angle g) - sin (vz p) * sin (fr_angle g) /\
  sin (vz p') = sin (vz p) * cos (fr_angle g) + cos (vz p) * sin (fr_angle g).
Proof.
  intros (_ & _ & S). destruct (same_angle_trig _ _ S) as [A B]. rewrite B, A, cos_plus, sin_plus. split; ring.
Qed.
Lemma moved_kind g v v' : moved g v v' -> kind_of v' = kind_of v.
Proof. destruct v, v'; cbn; tauto. Qed.
Lemma moved_dim g v v' : moved g v v' -> nval_dim v' = nval_dim v.
Proof. destruct v, v'; cbn; tauto. Qed.
Lemma heading_eq a b : a = b -> same_heading a b. Proof. intros ->. exists 0%Z. lra. Qed.

(** residuals *)
Lemma res_2poses2d_moved g obs o t o' t' : moved g (P2 o) (P2 o') -> moved g (P2 t) (P2 t') -> res_2poses2d obs o' t' = res_2poses2d obs o t.
Proof.
  intros Mo Mt. destruct (moved_trig _ _ _ Mo) as [EC ES]. destruct Mo as (Xo & Yo & k & Ko). destruct Mt as (Xt & Yt & m & Km).
  unfold res_2poses2d, wrap3. cbn [v3sub vx vy vz]. rewrite EC, ES, Xo, Yo, Xt, Yt. unfold seen_x, seen_y. pose proof (cs1 (fr_angle g)) as U. set (c := cos (fr_angle g)) in *. set (s := sin (fr_angle g)) in *.
  f_equal.
  - transitivity ((cos (vz o) * (vx t - vx o) + sin (vz o) * (vy t - vy o)) * (c * c + s * s) - vx obs); [ring | rewrite U; ring].
  - transitivity ((- sin (vz o) * (vx t - vx o) + cos (vz o) * (vy t - vy o)) * (c * c + s * s) - vy obs); [ring | rewrite U; ring].
  - apply wrap_angle_same. exists (m - k)%Z. rewrite Ko, Km, minus_IZR. ring.
Qed.
Lemma turn_l3 g v : forall i, (i < 3)%nat -> turn g (lvec (l3 v)) i = lvec (l3 (mkV3 (cos (fr_angle g) * vx v - sin (fr_angle g) * vy v) (sin (fr_angle g) * vx v + cos (fr_angle g) * vy v) (vz v))) i.
Proof. intros [|[|[|i]]] H; try lia; reflexivity. Qed.
Lemma res_odom_moved g obs o t o' t' : moved g (P2 o) (P2 o') -> moved g (P2 t) (P2 t') ->
  forall i, (i < 3)%nat -> lvec (l3 (res_odom obs o' t')) i = turn g (lvec (l3 (res_odom obs o t))) i.
Proof.
  intros Mo Mt i Hi. rewrite turn_l3 by auto. f_equal. f_equal. destruct Mo as (Xo & Yo & k & Ko). destruct Mt as (Xt & Yt & m & Km).
  assert (A : same_angle (vz o' + vx obs) (vz o + vx obs + fr_angle g)) by (exists k; rewrite Ko; ring).
  destruct (same_angle_trig _ _ A) as [ES EC]. rewrite (cos_plus (vz o + vx obs)) in EC. rewrite (sin_plus (vz o + vx obs)) in ES.
  unfold res_odom, wrap3, odom_prediction. cbn [v3sub vx vy vz]. rewrite EC, ES, Xo, Yo, Xt, Yt. unfold seen_x, seen_y. f_equal; try ring.
  apply wrap_angle_same. exists (k - m)%Z. rewrite Ko, Km, minus_IZR. ring.
Qed.
Lemma res_pose2d_moved g obs x obs' x' : moved g (P2 obs) (P2 obs') -> moved g (P2 x) (P2 x') ->
  forall i, (i < 3)%nat -> lvec (l3 (res_pose2d obs' x')) i = turn g (lvec (l3 (res_pose2d obs x))) i.
Proof.
  intros Mo Mt i Hi. rewrite turn_l3 by auto. f_equal. f_equal. destruct Mo as (Xo & Yo & k & Ko). destruct Mt as (Xt & Yt & m & Km).
  unfold res_pose2d, wrap3. cbn [v3sub vx vy vz]. rewrite Xo, Yo, Xt, Yt. unfold seen_x, seen_y. f_equal; try ring.
  apply wrap_angle_same. exists (m - k)%Z. rewrite Ko, Km, minus_IZR. ring.
Qed.
Lemma gap_moved g x a b x' a' b' : moved g (P2 x) (P2 x') -> moved g (L2 a b) (L2 a' b') ->
  (a' - vx x' = cos (fr_angle g) * (a - vx x) - sin (fr_angle g) * (b - vy x)) /\ (b' - vy x' = sin (fr_angle g) * (a - vx x) + cos (fr_angle g) * (b - vy x)) /\
  (a' - vx x') * (a' - vx x') + (b' - vy x') * (b' - vy x') = (a - vx x) * (a - vx x) + (b - vy x) * (b - vy x).
Proof.
  intros (X & Y & _) (A & B). assert (E1 : a' - vx x' = cos (fr_angle g) * (a - vx x) - sin (fr_angle g) * (b - vy x)) by (rewrite A, X; unfold seen_x; ring).
  assert (E2 : b' - vy x' = sin (fr_angle g) * (a - vx x) + cos (fr_angle g) * (b - vy x)) by (rewrite B, Y; unfold seen_y; ring). split; [exact E1|]. split; [exact E2|].
  rewrite E1, E2. pose proof (cs1 (fr_angle g)) as U. set (c := cos (fr_angle g)) in *. set (s := sin (fr_angle g)) in *.
  transitivity ((c * c + s * s) * ((a - vx x) * (a - vx x) + (b - vy x) * (b - vy x))); [ring | rewrite U; ring].
Qed.
Lemma res_landmark2d_moved g r be x a b x' a' b' : moved g (P2 x) (P2 x') -> moved g (L2 a b) (L2 a' b') -> res_landmark2d r be x' a' b' = res_landmark2d r be x a b.
Proof.
  intros M N. destruct (gap_moved _ _ _ _ _ _ _ M N) as (E1 & E2 & Q). destruct M as (_ & _ & k & K). unfold res_landmark2d. cbv zeta. rewrite Q.
  destruct (Rltb ((a - vx x) * (a - vx x) + (b - vy x) * (b - vy x)) (1 / 1000000)) eqn:L; [reflexivity|]. apply Rltb_niff in L. f_equal. f_equal. apply wrap_angle_same.
  set (dx := a - vx x) in *. set (dy := b - vy x) in *. assert (P : 0 < dx * dx + dy * dy) by lra.
  destruct (atan2_spec dx dy P) as (E & F). set (q := sqrt (dx * dx + dy * dy)) in *. assert (Hq : 0 < q) by (apply sqrt_lt_R0; exact P).
  assert (H : same_heading (atan2 (b' - vy x') (a' - vx x')) (atan2 dy dx + fr_angle g)).
  { apply (atan2_angle _ _ _ q Hq).
    - rewrite E1, cos_plus. transitivity (cos (fr_angle g) * (q * cos (atan2 dy dx)) - sin (fr_angle g) * (q * sin (atan2 dy dx))); [rewrite E, F; reflexivity | ring].
    - rewrite E2, sin_plus. transitivity (sin (fr_angle g) * (q * cos (atan2 dy dx)) + cos (fr_angle g) * (q * sin (atan2 dy dx))); [rewrite E, F; reflexivity | ring]. }
  destruct H as [m H]. exists (m - k)%Z. rewrite H, K, minus_IZR. ring.
Qed.

(** Jacobians times turned increments *)
Lemma jac_2poses2d_moved g o t o' t' d e : moved g (P2 o) (P2 o') -> moved g (P2 t) (P2 t') -> forall i, (i < 3)%nat ->
  row_dir (lmat (jac_2poses2d o' t') i) 0 [P2 o'; P2 t'] [turn g d; turn g e] = row_dir (lmat (jac_2poses2d o t) i) 0 [P2 o; P2 t] [d; e].
Proof.
  intros Mo Mt i Hi. destruct (moved_trig _ _ _ Mo) as [EC ES]. destruct Mo as (Xo & Yo & _). destruct Mt as (Xt & Yt & _).
  assert (DX : vx t' - vx o' = cos (fr_angle g) * (vx t - vx o) - sin (fr_angle g) * (vy t - vy o)) by (rewrite Xo, Xt; unfold seen_x; ring).
  assert (DY : vy t' - vy o' = sin (fr_angle g) * (vx t - vx o) + cos (fr_angle g) * (vy t - vy o)) by (rewrite Yo, Yt; unfold seen_y; ring).
  pose proof (cs1 (fr_angle g)) as U. unfold jac_2poses2d. cbv zeta. rewrite EC, ES, DX, DY.
  destruct i as [|[|[|i]]]; [| | |lia]; cbn [row_dir nval_dim sumn lmat nth Nat.add turn]; set (c := cos (fr_angle g)) in *; set (s := sin (fr_angle g)) in *; set (c1 := cos (vz o)); set (s1 := sin (vz o)).
  - transitivity ((c * c + s * s) * (- c1 * d 0%nat - s1 * d 1%nat + (- s1 * (vx t - vx o) + c1 * (vy t - vy o)) * d 2%nat + c1 * e 0%nat + s1 * e 1%nat)); [ring | rewrite U; ring].
  - transitivity ((c * c + s * s) * (s1 * d 0%nat - c1 * d 1%nat + (- c1 * (vx t - vx o) - s1 * (vy t - vy o)) * d 2%nat - s1 * e 0%nat + c1 * e 1%nat)); [ring | rewrite U; ring].
  - ring.
Qed.
Lemma jac_odom_moved g obs o t o' t' d e : moved g (P2 o) (P2 o') -> forall i, (i < 3)%nat ->
  row_dir (lmat (jac_odom obs o') i) 0 [P2 o'; P2 t'] [turn g d; turn g e] = turn g (fun i => row_dir (lmat (jac_odom obs o) i) 0 [P2 o; P2 t] [d; e]) i.
Proof.
  intros Mo i Hi. destruct (moved_trig _ _ _ Mo) as [EC ES]. unfold jac_odom. cbv zeta. rewrite EC, ES.
  destruct i as [|[|[|i]]]; [| | |lia]; cbn [row_dir nval_dim sumn lmat nth Nat.add turn]; ring.
Qed.
Lemma jac_pose2d_moved g x x' d : forall i, (i < 3)%nat ->
  row_dir (lmat jac_pose2d i) 0 [P2 x'] [turn g d] = turn g (fun i => row_dir (lmat jac_pose2d i) 0 [P2 x] [d]) i.
Proof.
  intros i Hi. unfold jac_pose2d. destruct i as [|[|[|i]]]; [| | |lia]; cbn [row_dir nval_dim sumn lmat nth Nat.add turn rows3 m3id a00 a01 a02 a10 a11 a12 a20 a21 a22]; ring.
Qed.
Definition jl2 (x : V3) (a b : R) (rev : bool) : list (list R) :=
  if rev then beside (snd (jac_landmark2d x a b)) (fst (jac_landmark2d x a b)) else beside (fst (jac_landmark2d x a b)) (snd (jac_landmark2d x a b)).
Definition ord2 {A} (rev : bool) (p q : A) : list A := if rev then [q; p] else [p; q].
(** far from the landmark the row of the second frame is that of the first; next
    to it (where the residual is 0) it is turned *)
Lemma jac_landmark2d_moved g rev x a b x' a' b' d e : moved g (P2 x) (P2 x') -> moved g (L2 a b) (L2 a' b') ->
  let J := fun i => row_dir (lmat (jl2 x a b rev) i) 0 (ord2 rev (P2 x) (L2 a b)) (ord2 rev d e) in
  forall i, (i < 2)%nat ->
  row_dir (lmat (jl2 x' a' b' rev) i) 0 (ord2 rev (P2 x') (L2 a' b')) (ord2 rev (turn g d) (turn g e)) =
    if Rltb ((a - vx x) * (a - vx x) + (b - vy x) * (b - vy x)) (1 / 1000000) then turn g J i else J i.
Proof.
  intros M N J i Hi. destruct (gap_moved _ _ _ _ _ _ _ M N) as (E1 & E2 & Q). pose proof (cs1 (fr_angle g)) as U.
  unfold J, jl2, jac_landmark2d. cbv zeta. rewrite Q. set (q := (a - vx x) * (a - vx x) + (b - vy x) * (b - vy x)) in *. rewrite E1, E2.
  destruct (Rltb q (1 / 1000000)) eqn:L; [|apply Rltb_niff in L].
  - destruct rev; cbn [fst snd beside app ord2]; destruct i as [|[|i]]; [| |lia| | |lia]; cbn [row_dir nval_dim sumn lmat nth Nat.add turn]; ring.
  - assert (Hq : q <> 0) by lra. assert (Hs : sqrt q <> 0) by (apply Rgt_not_eq, sqrt_lt_R0; lra). generalize dependent (sqrt q). intros sq Hs. clear Q E1 E2. clearbody q.
    set (c := cos (fr_angle g)) in *. set (s := sin (fr_angle g)) in *. set (dx := a - vx x). set (dy := b - vy x).
    assert (R1 : forall u v : R, (c * dx - s * dy) * (c * u - s * v) + (s * dx + c * dy) * (s * u + c * v) = dx * u + dy * v).
    { intros u v. transitivity ((c * c + s * s) * (dx * u + dy * v)); [ring | rewrite U; ring]. }
    assert (R2 : forall u v : R, (s * dx + c * dy) * (c * u - s * v) - (c * dx - s * dy) * (s * u + c * v) = dy * u - dx * v).
    { intros u v. transitivity ((c * c + s * s) * (dy * u - dx * v)); [ring | rewrite U; ring]. }
    destruct rev; cbn [fst snd beside app ord2]; destruct i as [|[|i]]; [| |lia| | |lia]; cbn [row_dir nval_dim sumn lmat nth Nat.add turn]; fold c; fold s.
    + transitivity ((((c * dx - s * dy) * (c * e 0%nat - s * e 1%nat) + (s * dx + c * dy) * (s * e 0%nat + c * e 1%nat)) - ((c * dx - s * dy) * (c * d 0%nat - s * d 1%nat) + (s * dx + c * dy) * (s * d 0%nat + c * d 1%nat))) / sq); [field; auto | rewrite !R1; field; auto].
    + transitivity ((((s * dx + c * dy) * (c * d 0%nat - s * d 1%nat) - (c * dx - s * dy) * (s * d 0%nat + c * d 1%nat)) - ((s * dx + c * dy) * (c * e 0%nat - s * e 1%nat) - (c * dx - s * dy) * (s * e 0%nat + c * e 1%nat))) / q - d 2%nat); [field; auto | rewrite !R2; field; auto].
    + transitivity ((((c * dx - s * dy) * (c * e 0%nat - s * e 1%nat) + (s * dx + c * dy) * (s * e 0%nat + c * e 1%nat)) - ((c * dx - s * dy) * (c * d 0%nat - s * d 1%nat) + (s * dx + c * dy) * (s * d 0%nat + c * d 1%nat))) / sq); [field; auto | rewrite !R1; field; auto].
    + transitivity ((((s * dx + c * dy) * (c * d 0%nat - s * d 1%nat) - (c * dx - s * dy) * (s * d 0%nat + c * d 1%nat)) - ((s * dx + c * dy) * (c * e 0%nat - s * e 1%nat) - (c * dx - s * dy) * (s * e 0%nat + c * e 1%nat))) / q - d 2%nat); [field; auto | rewrite !R2; field; auto].
Qed.

(** states set by constructors and by updates *)
Lemma init_odom_moved g obs o t o' t' : moved g (P2 o) (P2 o') -> moved g (init_odom obs o t) (init_odom obs o' t').
Proof.
  intros (X & Y & k & K). rewrite !init_odom_val. assert (A : same_angle (vz o' + vx obs) (vz o + vx obs + fr_angle g)) by (exists k; rewrite K; ring).
  destruct (same_angle_trig _ _ A) as [ES EC]. rewrite (cos_plus (vz o + vx obs)) in EC. rewrite (sin_plus (vz o + vx obs)) in ES.
  unfold wrap3, odom_prediction, moved, seen_x, seen_y. cbn [vx vy vz]. rewrite EC, ES, X, Y. unfold seen_x, seen_y. split; [ring|]. split; [ring|].
  eapply same_angle_trans; [apply wrap_angle_spec|]. destruct (wrap_angle_spec (vz o + vx obs + vz obs)) as [_ [m E]]. exists (k - m)%Z. rewrite E, K, minus_IZR. ring.
Qed.
Lemma init_landmark2d_moved g r be x x' : moved g (P2 x) (P2 x') -> moved g (init_landmark2d r be x) (init_landmark2d r be x').
Proof.
  intros (X & Y & k & K). assert (A : same_angle (be + vz x') (be + vz x + fr_angle g)) by (exists k; rewrite K; ring).
  destruct (same_angle_trig _ _ A) as [ES EC]. rewrite (cos_plus (be + vz x)) in EC. rewrite (sin_plus (be + vz x)) in ES.
  unfold init_landmark2d, moved. rewrite EC, ES, X, Y. unfold seen_x, seen_y. split; ring.
Qed.
Lemma init_2poses2d_moved g obs o t o' t' : same_heading (fr_angle g) 0 -> moved g (P2 o) (P2 o') -> moved g (init_2poses2d obs o t) (init_2poses2d obs o' t').
Proof.
  intros H (X & Y & k & K). rewrite !init_2poses2d_val. apply heading_cs in H. destruct H as [HC HS].
  unfold wrap3, moved. cbn [v3add vx vy vz]. rewrite X, Y. unfold seen_x, seen_y. rewrite HC, HS. split; [ring|]. split; [ring|].
  eapply same_angle_trans; [apply wrap_angle_spec|]. destruct (wrap_angle_spec (vz o + vz obs)) as [_ [m E]]. exists (k - m)%Z. rewrite E, K, minus_IZR. ring.
Qed.
Lemma update_moved g v v' d : moved g v v' -> moved g (val_update v d) (val_update v' (turn g d)).
Proof.
  destruct v, v'; cbn [moved]; try tauto.
  - intros (X & Y & k & K). unfold val_update, wrap3, moved, dx3, v3add. cbn [vx vy vz turn]. rewrite X, Y. unfold seen_x, seen_y. split; [ring|]. split; [ring|].
    eapply same_angle_trans; [apply wrap_angle_spec|]. destruct (wrap_angle_spec (vz x + d 2%nat)) as [_ [m E]]. exists (k - m)%Z. rewrite E, K, minus_IZR. ring.
  - intros (X & Y). unfold val_update, moved. cbn [turn]. rewrite X, Y. unfold seen_x, seen_y. split; ring.
Qed.
Lemma set_moved g v v' : moved g v v' -> moved g (val_set v) (val_set v').
Proof.
  destruct v, v'; cbn [moved val_set]; try tauto. intros (X & Y & k & K). unfold wrap3, moved. cbn [vx vy vz]. split; auto. split; auto.
  eapply same_angle_trans; [apply wrap_angle_spec|]. destruct (wrap_angle_spec (vz x)) as [_ [m E]]. exists (k - m)%Z. rewrite E, K, minus_IZR. ring.
Qed.
Lemma init_moved g v v' : moved g v v' -> moved g (node_init v) (node_init v').
Proof. destruct v, v'; cbn; tauto. Qed.
Lemma val_update_ext v f g : (forall k, (k < nval_dim v)%nat -> f k = g k) -> val_update v f = val_update v g.
Proof. destruct v; cbn [nval_dim]; intros H; cbn [val_update]; unfold dx3, dx4, dx6, dx3; rewrite ?(H 0%nat), ?(H 1%nat), ?(H 2%nat), ?(H 3%nat), ?(H 4%nat), ?(H 5%nat) by lia; reflexivity. Qed.

(** ** What a factor contributes is the same in both frames *)
Definition jtimes (jac : list nval -> nat -> nat -> R) (vs : list nval) (ds : list (nat -> R)) : nat -> R := fun i => row_dir (jac vs i) 0 vs ds.
Definition law (solving : bool) (g : frame) (ks : list kind) (n : nat) (res : list nval -> nat -> R) (jac : list nval -> nat -> nat -> R) (W : nat -> nat -> R)
  (res' : list nval -> nat -> R) (jac' : list nval -> nat -> nat -> R) (W' : nat -> nat -> R) : Prop :=
  (forall vs vs', map kind_of vs = ks -> Forall2 (moved g) vs vs' ->
    quad n W' (res' vs') (res' vs') = quad n W (res vs) (res vs) /\
    (solving = true -> forall ds es, length ds = length vs -> length es = length vs ->
       quad n W' (jtimes jac' vs' (map (turn g) ds)) (jtimes jac' vs' (map (turn g) es)) = quad n W (jtimes jac vs ds) (jtimes jac vs es) /\
       quad n W' (jtimes jac' vs' (map (turn g) ds)) (res' vs') = quad n W (jtimes jac vs ds) (res vs))) /\
  (solving = true -> proper n W /\ proper n W').
Lemma law_same sol g ks n res jac W : (sol = true -> proper n W) ->
  (forall vs vs', map kind_of vs = ks -> Forall2 (moved g) vs vs' -> (forall i, (i < n)%nat -> res vs' i = res vs i) /\
     forall ds, length ds = length vs -> forall i, (i < n)%nat -> jtimes jac vs' (map (turn g) ds) i = jtimes jac vs ds i) ->
  law sol g ks n res jac W res jac W.
Proof.
  intros P H. split; [|intros S; specialize (P S); auto]. intros vs vs' K M. destruct (H vs vs' K M) as [HR HJ]. split; [apply quad_ext; auto|].
  intros _ ds es Ld Le. split; apply quad_ext; auto.
Qed.
Lemma law_turned sol g ks n res jac W res' jac' W' : (sol = true -> proper n W /\ proper n W') -> turned n g W W' ->
  (forall vs vs', map kind_of vs = ks -> Forall2 (moved g) vs vs' -> (forall i, (i < n)%nat -> res' vs' i = turn g (res vs) i) /\
     forall ds, length ds = length vs -> forall i, (i < n)%nat -> jtimes jac' vs' (map (turn g) ds) i = turn g (jtimes jac vs ds) i) ->
  law sol g ks n res jac W res' jac' W'.
Proof.
  intros P T H. split; [|exact P]. intros vs vs' K M. destruct (H vs vs' K M) as [HR HJ]. split; [rewrite <- T; apply quad_ext; auto|].
  intros _ ds es Ld Le. split; rewrite <- T; apply quad_ext; auto.
Qed.
Lemma two_lists {A} (l : list A) : length l = 2%nat -> exists x y, l = [x; y].
Proof. destruct l as [|x [|y [|z l]]]; try discriminate. eauto. Qed.
Lemma one_list {A} (l : list A) : length l = 1%nat -> exists x, l = [x].
Proof. destruct l as [|x [|y l]]; try discriminate. eauto. Qed.
Lemma kinds2 vs k1 k2 : map kind_of vs = [k1; k2] -> exists v1 v2, vs = [v1; v2] /\ kind_of v1 = k1 /\ kind_of v2 = k2.
Proof. destruct vs as [|v1 [|v2 [|]]]; try discriminate. cbn. intros E. injection E as <- <-. eauto. Qed.
Lemma moved2 g v1 v2 vs' : Forall2 (moved g) [v1; v2] vs' -> exists v1' v2', vs' = [v1'; v2'] /\ moved g v1 v1' /\ moved g v2 v2'.
Proof. intros F. inversion F as [|? ? ? ? M1 F1]; subst. inversion F1 as [|? ? ? ? M2 F2]; subst. inversion F2. subst. eauto. Qed.
Ltac planar2 K M := destruct (kinds2 _ _ _ K) as (v1 & v2 & -> & K1 & K2); destruct (moved2 _ _ _ _ M) as (v1' & v2' & -> & M1 & M2);
  destruct v1, v2; try discriminate; destruct v1'; try contradiction; destruct v2'; try contradiction; clear K K1 K2.
Lemma law_2poses2d sol g obs i W : (sol = true -> proper 3 W) ->
  law sol g [KP2; KP2] 3 (fc_res (c_2poses2d obs i)) (fc_jac (c_2poses2d obs i)) W (fc_res (c_2poses2d obs i)) (fc_jac (c_2poses2d obs i)) W.
Proof.
  intros P. apply law_same; auto. intros vs vs' K M. planar2 K M. cbn [fc_res fc_jac c_2poses2d]. split.
  - intros k _. rewrite (res_2poses2d_moved g obs x x0 x1 x2 M1 M2). reflexivity.
  - intros ds Ld k Hk. destruct (two_lists ds Ld) as (d & e & ->). exact (jac_2poses2d_moved g x x0 x1 x2 d e M1 M2 k Hk).
Qed.
Lemma law_odom sol g obs i W W' : (sol = true -> proper 3 W /\ proper 3 W') -> turned 3 g W W' ->
  law sol g [KP2; KP2] 3 (fc_res (c_odom obs i)) (fc_jac (c_odom obs i)) W (fc_res (c_odom obs i)) (fc_jac (c_odom obs i)) W'.
Proof.
  intros P T. apply law_turned; auto. intros vs vs' K M. planar2 K M. cbn [fc_res fc_jac c_odom]. split.
  - intros k Hk. exact (res_odom_moved g obs x x0 x1 x2 M1 M2 k Hk).
  - intros ds Ld k Hk. destruct (two_lists ds Ld) as (d & e & ->). exact (jac_odom_moved g obs x x0 x1 x2 d e M1 k Hk).
Qed.
Lemma law_pose2d sol g obs obs' W W' : (sol = true -> proper 3 W /\ proper 3 W') -> turned 3 g W W' -> moved g (P2 obs) (P2 obs') ->
  law sol g [KP2] 3 (fc_res (c_pose2d obs)) (fc_jac (c_pose2d obs)) W (fc_res (c_pose2d obs')) (fc_jac (c_pose2d obs')) W'.
Proof.
  intros P T MO. apply law_turned; auto. intros vs vs' K M. destruct vs as [|v [|]]; try discriminate. inversion M as [|? v' ? ? M1 F]; subst. inversion F; subst.
  destruct v; try discriminate. destruct v'; try contradiction. cbn [fc_res fc_jac c_pose2d]. split.
  - intros k Hk. exact (res_pose2d_moved g obs x obs' x0 MO M1 k Hk).
  - intros ds Ld k Hk. destruct (one_list ds Ld) as (d & ->). exact (jac_pose2d_moved g x x0 d k Hk).
Qed.
Lemma turned_nil n g W a b : turned n g W W -> (forall i, (i < n)%nat -> b i = 0) -> quad n W (turn g a) b = quad n W a b.
Proof.
  intros _ Z. unfold quad. apply sumn_ext. intros l _. rewrite (sumn_zero n (fun k => turn g a l * W l k * b k)), (sumn_zero n (fun k => a l * W l k * b k)); auto; intros k Hk; rewrite (Z k Hk); ring.
Qed.
Lemma law_landmark2d sol g r be rev init W : (sol = true -> proper 2 W /\ turned 2 g W W) ->
  law sol g (ord2 rev KP2 KL2) 2 (fc_res (c_landmark2d r be rev init)) (fc_jac (c_landmark2d r be rev init)) W (fc_res (c_landmark2d r be rev init)) (fc_jac (c_landmark2d r be rev init)) W.
Proof.
  intros P. split; [|intros S; destruct (P S); auto]. intros vs vs' K M.
  assert (X : exists x a b x' a' b', vs = ord2 rev (P2 x) (L2 a b) /\ vs' = ord2 rev (P2 x') (L2 a' b') /\ moved g (P2 x) (P2 x') /\ moved g (L2 a b) (L2 a' b')).
  { destruct rev; cbn [ord2] in *; planar2 K M; [exists x0, x, y, x2, x1, y0 | exists x, x0, y, x1, x2, y0]; auto. }
  destruct X as (x & a & b & x' & a' & b' & -> & -> & M1 & M2). clear K M.
  assert (RE : forall z p q, fc_res (c_landmark2d r be rev init) (ord2 rev (P2 z) (L2 p q)) = lvec (res_landmark2d r be z p q)) by (intros; destruct rev; reflexivity).
  assert (JE : forall z p q, fc_jac (c_landmark2d r be rev init) (ord2 rev (P2 z) (L2 p q)) = lmat (jl2 z p q rev)) by (intros; destruct rev; reflexivity).
  rewrite !RE. rewrite (res_landmark2d_moved g r be _ _ _ _ _ _ M1 M2). split; [reflexivity|]. intros S ds es Ld Le. destruct (P S) as [_ T].
  assert (OL : forall l : list (nat -> R), length l = length (ord2 rev (P2 x) (L2 a b)) -> exists d e, l = ord2 rev d e).
  { intros l L. destruct rev; cbn in L; destruct (two_lists l L) as (d & e & ->); [exists e, d | exists d, e]; reflexivity. }
  destruct (OL ds Ld) as (d1 & d2 & ->). destruct (OL es Le) as (e1 & e2 & ->). clear OL Ld Le.
  assert (MT : forall d e : nat -> R, map (turn g) (ord2 rev d e) = ord2 rev (turn g d) (turn g e)) by (intros; destruct rev; reflexivity).
  unfold jtimes. rewrite !MT, !JE. pose proof (jac_landmark2d_moved g rev x a b x' a' b' d1 d2 M1 M2) as HD. pose proof (jac_landmark2d_moved g rev x a b x' a' b' e1 e2 M1 M2) as HE. cbv zeta in HD, HE.
  assert (ZR : Rltb ((a - vx x) * (a - vx x) + (b - vy x) * (b - vy x)) (1 / 1000000) = true -> forall i, (i < 2)%nat -> lvec (res_landmark2d r be x a b) i = 0).
  { intros L i Hi. unfold res_landmark2d. cbv zeta. rewrite L. destruct i as [|[|]]; try lia; reflexivity. }
  destruct (Rltb _ _).
  - split.
    + symmetry. rewrite <- T. symmetry. apply quad_ext; auto.
    + transitivity (quad 2 W (turn g (fun i => row_dir (lmat (jl2 x a b rev) i) 0 (ord2 rev (P2 x) (L2 a b)) (ord2 rev d1 d2))) (lvec (res_landmark2d r be x a b))); [apply quad_ext; auto | apply turned_nil; auto].
  - split; apply quad_ext; auto.
Qed.
