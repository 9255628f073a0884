(** A concrete problem: the six faces of a box seen from three poses. *)
Require Import Reals List Arith Lia Lra Psatz Bool.
From Verif Require Import Lin LinFacts SO3 SE3 SpecGeom SE3Alg Factors3DLn Sums Registration SpecRegistration RegistrationProofs ArunProofs RegistrationMore Optimizer OptimizerProofs Planes SpecPlanes PlanesProofs PlanesEigen PlanesMore SpecPlaneReg PlaneRegProofs PlaneRegMore PlaneRegSolve PlaneRegInit.
Import ListNotations.
Local Open Scope R_scope.

Lemma least_zero tr pts u : v4dot u u <> 0 -> in_plane u tr pts -> least (fun v => cloud_error v tr pts) 0.
Proof.
  intros NZ IP. destruct (normalise4 u NZ) as (k & U & _). split.
  - exists (v4scal k u). split; auto. rewrite cloud_scal. apply cloud_zero in IP. rewrite IP. ring.
  - intros v _. unfold cloud_error. apply lsum_nonneg. intros q _. apply lsum_nonneg. intros x _. nra.
Qed.
Lemma least_nonneg tr pts e : least (fun v => cloud_error v tr pts) e -> 0 <= e.
Proof. intros [(v & _ & <-) _]. unfold cloud_error. apply lsum_nonneg. intros q _. apply lsum_nonneg. intros x _. nra. Qed.
Lemma total_nonneg tr h e : total_error tr h e -> 0 <= e.
Proof. induction 1 as [|i n ops h e s L T IH]; [lra|]. apply least_nonneg in L. lra. Qed.
Lemma total_zero tr h e : total_error tr h e -> e = 0 -> forall i n ops, In (i, (n, ops)) h -> exists v, v4dot v v <> 0 /\ in_plane v tr (used n ops).
Proof.
  induction 1 as [|i n ops h e s L T IH]; intros Z j m o I; [destruct I|]. pose proof (least_nonneg _ _ _ L). pose proof (total_nonneg _ _ _ T). assert (E0 : e = 0) by lra. assert (S0 : s = 0) by lra.
  destruct I as [I | I]; [injection I as <- <- <-|eapply IH; eauto]. destruct L as [(v & U & F) _]. exists v. split; [rewrite U; lra|]. apply cloud_zero. lra.
Qed.

(** three points of each face, around its centre *)
Definition faces : list (list V3) :=
  [[mkV3 3 1 1; mkV3 3 (-1) 0; mkV3 3 0 (-1)]; [mkV3 (-3) 1 1; mkV3 (-3) (-1) 0; mkV3 (-3) 0 (-1)];
   [mkV3 1 2 1; mkV3 (-1) 2 0; mkV3 0 2 (-1)]; [mkV3 1 (-2) 1; mkV3 (-1) (-2) 0; mkV3 0 (-2) (-1)];
   [mkV3 1 1 1; mkV3 (-1) 0 1; mkV3 0 (-1) 1]; [mkV3 1 1 (-1); mkV3 (-1) 0 (-1); mkV3 0 (-1) (-1)]].
Definition lift : V3 := mkV3 0 0 1.
(** seen from the origin, from one unit higher, and from the origin again *)
Definition views (l : list V3) (i : nat) : list reg_op :=
  map (RPush i 0) l ++ map (fun x => RPush i 1 (v3sub x lift)) l ++ map (RPush i 2) l.
Definition box : list reg_op :=
  RSet 6 3 :: map RNew (seq 0 6) ++ flat_map (fun q => views (snd q) (fst q)) (combine (seq 0 6) faces).
Definition face_ops (l : list V3) : list plane_op :=
  map (fun x => Push x 0) l ++ map (fun x => Push (v3sub x lift) 1) l ++ map (fun x => Push x 2) l.
Lemma box_history : history box = (3%nat, map (fun q => (fst q, (3%nat, face_ops (snd q)))) (combine (seq 0 6) faces)).
Proof. reflexivity. Qed.
Lemma box_building : Forall building box. Proof. repeat constructor. Qed.
Lemma box_enabled : enabled_all (0%nat, []) box. Proof. apply (wired_enabled box []); [intros i [] | reflexivity]. Qed.
Lemma face_pushed l : pushed (face_ops l) 0 = l /\ pushed (face_ops l) 1 = map (fun x => v3sub x lift) l /\ pushed (face_ops l) 2 = l.
Proof.
  unfold face_ops. rewrite !pushed_app. unfold pushed. rewrite !flat_map_concat_map, !map_map. cbn [Nat.eqb]. rewrite <- !flat_map_concat_map.
  assert (A : forall (f : V3 -> V3), flat_map (fun x => [f x]) l = map f l) by (intros f; induction l; cbn; congruence).
  assert (B : flat_map (fun _ : V3 => @nil V3) l = []) by (induction l; cbn; auto).
  rewrite !B, (A (fun x => x)), (A (fun x => v3sub x lift)), map_id, app_nil_r. cbn. rewrite app_nil_r. auto.
Qed.
Definition lifted : M4 := se3_of_Rt m3id lift.
Lemma cons_eq {A} (a b : A) l m : a = b -> l = m -> a :: l = b :: m. Proof. congruence. Qed.
Lemma box_centres t : (1 <= t < 3)%nat -> centres_first t (planes_of box) = cross6 3 2 1 /\
  centres_at t (planes_of box) = if Nat.eqb t 1 then map (fun x => v3sub x lift) (cross6 3 2 1) else cross6 3 2 1.
Proof.
  intros H. unfold planes_of. rewrite box_history. unfold centres_first, centres_at, faces, cross6. cbn [combine seq map fst snd].
  assert (S : forall a i, seen t (i, (3%nat, face_ops a)) = negb (Nat.eqb (length a) 0)).
  { intros a i. unfold seen. cbn [snd]. destruct (face_pushed a) as (P0 & P1 & P2). assert (E : t = 1%nat \/ t = 2%nat) by lia. destruct E as [-> | ->]; [rewrite P1, map_length | rewrite P2]; reflexivity. }
  cbn [filter]. rewrite !S. cbn [length Nat.eqb negb map]. unfold centre. cbn [snd].
  repeat match goal with |- context [pushed (face_ops ?l) 0] => rewrite (proj1 (face_pushed l)) end.
  assert (E : t = 1%nat \/ t = 2%nat) by lia. destruct E as [-> | ->].
  - repeat match goal with |- context [pushed (face_ops ?l) 1] => rewrite (proj1 (proj2 (face_pushed l))) end. cbn [map Nat.eqb]. unfold mean. cbn [length v3sum fold_right INR]. unfold lift. lin_unfold.
    split; repeat (apply cons_eq; [apply v3_eq; lra|]); reflexivity.
  - repeat match goal with |- context [pushed (face_ops ?l) 2] => rewrite (proj2 (proj2 (face_pushed l))) end. cbn [map Nat.eqb]. unfold mean. cbn [length v3sum fold_right INR]. lin_unfold.
    split; repeat (apply cons_eq; [apply v3_eq; lra|]); reflexivity.
Qed.
Definition box_pose (t : nat) : M4 := if Nat.eqb t 1 then lifted else m4id.
Lemma rigid_lifted : rigid lifted. Proof. unfold lifted. apply rigid_of_Rt, rigid_id. Qed.
Lemma box_first t : (1 <= t < 3)%nat -> centres_first t (planes_of box) = map (move (box_pose t)) (centres_at t (planes_of box)).
Proof.
  intros H. destruct (box_centres t H) as [-> ->]. unfold box_pose. destruct (t =? 1)%nat.
  - rewrite map_map. rewrite <- (map_id (cross6 3 2 1)) at 1. apply map_ext. intros x. unfold move, lifted, se3_of_Rt, lift. cbn [mR mt]. destruct x. lin.
  - rewrite <- (map_id (cross6 3 2 1)) at 1. apply map_ext. intros x. symmetry. apply move_id.
Qed.
Lemma box_rigid t : rigid (box_pose t). Proof. unfold box_pose. destruct (t =? 1)%nat; [apply rigid_lifted | apply rigid_id]. Qed.
Lemma box_gram t : (1 <= t < 3)%nat -> gram (centred (centres_at t (planes_of box))) (centred (centres_first t (planes_of box))) = diag3 (mkV3 18 8 2).
Proof.
  intros H. rewrite (box_first t H), gram_move. replace (mR (box_pose t)) with m3id by (unfold box_pose; destruct (t =? 1)%nat; reflexivity). rewrite m3tr_id, m3mul_id_r.
  transitivity (gram (centred (cross6 3 2 1)) (centred (cross6 3 2 1))); [|rewrite cross6_gram; f_equal; apply v3_eq; cbn; ring].
  destruct (box_centres t H) as [_ ->]. destruct (t =? 1)%nat; auto.
  replace (map (fun x => v3sub x lift) (cross6 3 2 1)) with (map (move (se3_of_Rt m3id (v3opp lift))) (cross6 3 2 1)).
  - set (M := se3_of_Rt m3id (v3opp lift)). f_equal; (unfold centred at 1; rewrite mean_move by discriminate; unfold centred; rewrite map_map; apply map_ext; intros x; unfold move; cbn [M se3_of_Rt mR mt]; generalize (mean (cross6 3 2 1)); intros m; destruct x, m; lin).
  - apply map_ext. intros x. unfold move, se3_of_Rt, lift. cbn [mR mt]. destruct x. lin.
Qed.
(** the planes of the faces *)
Definition walls : list V4 := [mkV4 (mkV3 1 0 0) (-3); mkV4 (mkV3 1 0 0) 3; mkV4 (mkV3 0 1 0) (-2); mkV4 (mkV3 0 1 0) 2; mkV4 (mkV3 0 0 1) (-1); mkV4 (mkV3 0 0 1) 1].
Definition on_wall (w : V4) (l : list V3) : Prop :=
  v4dot w w <> 0 /\ (forall x, In x l -> plane_at w x = 0) /\
  forall v, v4dot v v <> 0 -> (forall x, In x l -> plane_at v x = 0) -> exists a, a <> 0 /\ v = v4scal a w.
Lemma walls_on : Forall (fun q => on_wall (fst q) (snd q)) (combine walls faces).
Proof.
  unfold walls, faces. cbn [combine].
  repeat (constructor; [cbn [fst snd]; split; [lin_unfold; lra | split; [intros x [<- | [<- | [<- | []]]]; unfold plane_at; lin_unfold; lra|]];
    intros [[a b c] d] NZ H; pose proof (H _ (or_introl eq_refl)) as H1; pose proof (H _ (or_intror (or_introl eq_refl))) as H2; pose proof (H _ (or_intror (or_intror (or_introl eq_refl)))) as H3;
    unfold plane_at in H1, H2, H3; lin_unfold_in H1; lin_unfold_in H2; lin_unfold_in H3; clear H|]).
  - exists a. split; [intros ->; apply NZ; assert (b = 0) by lra; assert (c = 0) by lra; assert (d = 0) by lra; subst; lin | unfold v4scal; lin_unfold; f_equal; [apply v3_eq; lra | lra]].
  - exists a. split; [intros ->; apply NZ; assert (b = 0) by lra; assert (c = 0) by lra; assert (d = 0) by lra; subst; lin | unfold v4scal; lin_unfold; f_equal; [apply v3_eq; lra | lra]].
  - exists b. split; [intros ->; apply NZ; assert (a = 0) by lra; assert (c = 0) by lra; assert (d = 0) by lra; subst; lin | unfold v4scal; lin_unfold; f_equal; [apply v3_eq; lra | lra]].
  - exists b. split; [intros ->; apply NZ; assert (a = 0) by lra; assert (c = 0) by lra; assert (d = 0) by lra; subst; lin | unfold v4scal; lin_unfold; f_equal; [apply v3_eq; lra | lra]].
  - exists c. split; [intros ->; apply NZ; assert (a = 0) by lra; assert (b = 0) by lra; assert (d = 0) by lra; subst; lin | unfold v4scal; lin_unfold; f_equal; [apply v3_eq; lra | lra]].
  - exists c. split; [intros ->; apply NZ; assert (a = 0) by lra; assert (b = 0) by lra; assert (d = 0) by lra; subst; lin | unfold v4scal; lin_unfold; f_equal; [apply v3_eq; lra | lra]].
  - constructor.
Qed.
(** the history after evaluations and solves *)
Definition face_clouds (l : list V3) : list (list V3) := [l; map (fun x => v3sub x lift) l; l].
Lemma face_used l : used 3 (face_ops l) = face_clouds l.
Proof.
  rewrite used_pushes.
  - unfold all_pushed. cbn [seq map]. destruct (face_pushed l) as (-> & -> & ->). reflexivity.
  - unfold face_ops. rewrite !Forall_app, !Forall_map. repeat split; apply Forall_forall; intros x _; eexists; eauto.
Qed.
Lemma used_estimate n ops : used n (ops ++ [Estimate []]) = used n ops.
Proof. unfold used at 1. rewrite snapshot_estimate. reflexivity. Qed.
Lemma plane_at_zero a w y : a <> 0 -> plane_at (v4scal a w) y = 0 -> plane_at w y = 0.
Proof. intros A H. rewrite plane_at_scal in H. apply Rmult_integral in H. tauto. Qed.
(** any affine last pose without error is the identity *)
Lemma box_forces T1 T : hom4 T -> (forall l, In l faces -> exists v, v4dot v v <> 0 /\ in_plane v [m4id; T1; T] (face_clouds l)) ->
  T = m4id /\ forall x, In x [mkV3 1 1 1; mkV3 (-1) 0 1; mkV3 0 (-1) 1] -> plane_at (mkV4 (mkV3 0 0 1) (-1)) (move T1 (v3sub x lift)) = 0.
Proof.
  intros HT H.
  assert (K : Forall (fun q => forall x, In x (snd q) -> plane_at (fst q) (move T x) = 0 /\ plane_at (fst q) (move T1 (v3sub x lift)) = 0) (combine walls faces)).
  { pose proof walls_on as W. rewrite Forall_forall in *. intros [w l] I x Ix. cbn [fst snd] in *. destruct (W _ I) as (_ & _ & U). cbn [fst snd] in U.
    destruct (H l (in_combine_r _ _ _ _ I)) as (v & NZ & P). destruct (U v NZ) as (a & A & ->).
    - intros y Iy. rewrite <- (move_id y). apply (P m4id l y); auto. left. reflexivity.
    - split; apply (plane_at_zero a); auto.
      + apply (P T l x); auto. right. right. left. reflexivity.
      + apply (P T1 (map (fun x => v3sub x lift) l)); [right; left; reflexivity | apply in_map_iff; eauto]. }
  split.
  2:{ intros x Ix. unfold walls, faces in K. cbn [combine] in K. do 4 apply Forall_inv_tail in K. apply Forall_inv in K. cbn [fst snd] in K. apply (K x Ix). }
  destruct T as [[p00 p01 p02 p10 p11 p12 p20 p21 p22] [t0 t1 t2] b c]. destruct HT as [Hb Hc]. cbn in Hb, Hc. subst b c. unfold walls, faces in K. cbn [combine] in K.
  assert (G : forall w x, plane_at w (move (mkM4 (mkM3 p00 p01 p02 p10 p11 p12 p20 p21 p22) (mkV3 t0 t1 t2) v3zero 1) x) =
    vx (v4h w) * (p00 * vx x + p01 * vy x + p02 * vz x + t0) + vy (v4h w) * (p10 * vx x + p11 * vy x + p12 * vz x + t1) + vz (v4h w) * (p20 * vx x + p21 * vy x + p22 * vz x + t2) + v4l w).
  { intros w x. unfold plane_at, move. cbn [mR mt]. destruct w as [[]], x. lin. }
  repeat match goal with
  | F : Forall _ (_ :: _) |- _ => let A := fresh in let B := fresh in pose proof (Forall_inv F) as A; pose proof (Forall_inv_tail F) as B; clear F; cbn [fst snd] in A;
     let A1 := fresh in let A2 := fresh in let A3 := fresh in
     pose proof (proj1 (A _ (or_introl eq_refl))) as A1; pose proof (proj1 (A _ (or_intror (or_introl eq_refl)))) as A2; pose proof (proj1 (A _ (or_intror (or_intror (or_introl eq_refl))))) as A3; clear A;
     rewrite G in A1, A2, A3; cbn [v4h v4l vx vy vz] in A1, A2, A3
  end. clear G.
  unfold m4id, m3id, v3zero. f_equal; [apply m3_eq; lra | apply v3_eq; lra].
Qed.
Lemma box_arun f t : (1 <= t < 3)%nat -> exact_svd f (centres_at t (planes_of box)) (centres_first t (planes_of box)) ->
  exists T, arun f (centres_at t (planes_of box)) (centres_first t (planes_of box)) m4id = Some (1%nat, T).
Proof.
  intros Ht X. apply (arun_accepts f _ _ m4id (mkSvd m3id (mkV3 18 8 2) m3id)); auto.
  - rewrite (box_first t Ht), map_length. reflexivity.
  - rewrite (box_gram t Ht). apply diag_svd; lra.
  - cbn. lra.
  - cbn. lra.
Qed.
Lemma arun_recovers f X T0 T T' : exact_svd f X (map (move T0) X) -> rigid T0 -> arun f X (map (move T0) X) T = Some (1%nat, T') -> T' = T0.
Proof.
  intros S R0 H. destruct (arun_optimal f X _ T T' S H) as [[A B] C]. symmetry. apply C. split; auto. intros T3 R3. rewrite error_exact. apply error_nonneg.
Qed.
Lemma planes_of_eq ops : planes_of ops = snd (history ops). Proof. reflexivity. Qed.
Lemma poses_of_eq ops : poses_of ops = fst (history ops). Proof. reflexivity. Qed.
Lemma box_seen : Forall (fun a => seen 0 a = true) (snd (history box)).
Proof. rewrite box_history. cbn [snd]. apply Forall_map, Forall_forall. intros q I. unfold seen. cbn [snd]. rewrite (proj1 (face_pushed (snd q))). destruct q as [i l]. apply in_combine_r in I. unfold faces in I. cbn [snd In] in *.
  repeat destruct I as [<- | I]; reflexivity || contradiction.
Qed.
Lemma box_poses : fst (history box) = 3%nat. Proof. rewrite box_history. reflexivity. Qed.
Lemma box_aligned k t : (forall H, svd_of H (k_svd k H)) -> (1 <= t < 3)%nat -> forall c T, arun (k_svd k) (centres_at t (snd (history box))) (centres_first t (snd (history box))) m4id = Some (c, T) -> c = 1%nat /\ T = box_pose t.
Proof.
  intros SV Ht c' T A. pose proof (box_arun (k_svd k) t Ht) as BA. pose proof (box_first t Ht) as BF. rewrite planes_of_eq in BA, BF.
  assert (X : exact_svd (k_svd k) (centres_at t (snd (history box))) (centres_first t (snd (history box)))) by (unfold exact_svd; auto).
  destruct (BA X) as (T' & A'). rewrite A in A'. injection A' as -> ->. split; auto. rewrite BF in A, X. exact (arun_recovers _ _ _ _ _ X (box_rigid t) A).
Qed.
Lemma init_first_pose k ops s r0 r1 c : Forall reg_ok ops -> reg_run k ops preg_new = Some r0 -> preg_solve (k_eigs k) (k_inv k) (k_svd k) INITIALIZE s r0 = Some (c, r1) ->
  (2 <= length (pr_traj r1))%nat -> nth_error (pr_traj r1) 0 = Some m4id.
Proof.
  intros F E0 E1. refine (af_first _ _ _ (after_run k (ops ++ [RSolve INITIALIZE s]) r1 _ _)); [apply Forall_app; split; auto; constructor; auto; exact I|].
  rewrite reg_run_app, E0. cbn [reg_run reg_step]. rewrite E1. reflexivity.
Qed.
(** the initialised box: no error left *)
Lemma box_settled k s : (forall H, svd_of H (k_svd k H)) -> exists r0 r1, reg_run k box preg_new = Some r0 /\
  preg_solve (k_eigs k) (k_inv k) (k_svd k) INITIALIZE s r0 = Some (1%nat, r1) /\ pr_traj r1 = [m4id; lifted; m4id].
Proof.
  intros SV. destruct (enabled_run k box box_enabled) as (r0 & E0 & F). exists r0. pose proof (after_run k box r0 F E0) as AF.
  pose proof (proj1 (building_history box box_building)) as SZ. pose proof (building_fresh box box_building) as FR. rewrite planes_of_eq in SZ, FR. rewrite poses_of_eq in SZ.
  pose proof (fun t => box_aligned k t SV) as AL. pose proof box_seen as SN. pose proof box_poses as FH. pose proof (init_first_pose k box s r0) as AF1.
  revert AF SZ FR FH SN AL. generalize (history box). intros h AF SZ FR FH SN AL.
  destruct (initialize_spec k h s r0 ltac:(lia) AF SZ FR SN) as (c & r1 & E1 & _ & LT & CS). rewrite FH in LT, CS. specialize (AF1 r1 c F E0 E1 ltac:(lia)).
  destruct CS as [[-> CA] | (-> & t0 & H0 & (T & A) & _)].
  2:{ destruct (AL t0 H0 _ _ A). discriminate. }
  exists r1. split; auto. split; auto.
  destruct (CA 1%nat ltac:(lia)) as (T1 & A1 & N1). destruct (AL 1%nat ltac:(lia) _ _ A1) as [_ ->].
  destruct (CA 2%nat ltac:(lia)) as (T2 & A2 & N2). destruct (AL 2%nat ltac:(lia) _ _ A2) as [_ ->].
  destruct (pr_traj r1) as [|a [|b [|c [|d l]]]]; try discriminate LT. cbn in AF1, N1, N2. congruence.
Qed.
(** the planes keep their points *)
Lemma box_more ops : Forall (fun o => o = RError \/ exists m s, o = RSolve m s) ops -> exists es,
  history (box ++ ops) = (3%nat, map (fun q => (fst q, (3%nat, face_ops (snd q) ++ es))) (combine (seq 0 6) faces)) /\ forall l, used 3 (face_ops l ++ es) = face_clouds l.
Proof.
  induction ops as [|o ops IH] using rev_ind; intros F.
  - exists []. rewrite app_nil_r, box_history. split; [f_equal; apply map_ext; intros; rewrite app_nil_r; reflexivity | intros l; rewrite app_nil_r; apply face_used].
  - apply Forall_app in F. destruct F as [F Fo]. apply Forall_inv in Fo. destruct (IH F) as (es & E & U). exists (es ++ [Estimate []]). split.
    + rewrite app_assoc, history_snoc, E. assert (N : forall h, note h o = (fst h, extend (fun _ => true) (Estimate []) (snd h))) by (intros h; destruct Fo as [-> | (m & s & ->)]; reflexivity).
      rewrite N. cbn [fst snd]. apply f_equal. unfold extend. rewrite map_map. apply map_ext. intros q. cbn [fst snd]. rewrite app_assoc. reflexivity.
    + intros l. rewrite app_assoc, used_estimate. apply U.
Qed.
Lemma box_error_zero k ops r e r' : (forall Q, m4tr Q = Q -> exact4 (k_eigs k) Q) -> Forall (fun o => o = RError \/ exists m s, o = RSolve m s) ops ->
  reg_run k (box ++ ops) preg_new = Some r -> get_current_error (k_eigs k) r = Some (e, r') ->
  (e = 0 <-> forall l, In l faces -> exists v, v4dot v v <> 0 /\ in_plane v (pr_traj r) (face_clouds l)) /\ 0 <= e.
Proof.
  intros EX FO RUN G. assert (FR : Forall reg_ok (box ++ ops)).
  { apply Forall_app. split; [destruct (enabled_run k box box_enabled) as (? & _ & F); exact F|]. eapply Forall_impl; [|exact FO]. intros o [-> | (m & s & ->)]; exact I. }
  pose proof (after_run k _ _ FR RUN) as AF. destruct (box_more ops FO) as (es & EH & U).
  unfold get_current_error in G. destruct (estimate_all (k_eigs k) (pr_traj r) (pr_planes r)) as [[e1 l1]|] eqn:E; [|discriminate]. cbn [option_map fst snd] in G. injection G as -> _.
  destruct (af_tracked _ _ _ AF) as [_ TK]. pose proof (af_hom _ _ _ AF) as HM. apply Forall_inv_tail in HM.
  pose proof (estimated_error _ _ _ _ _ _ EX HM TK E) as TE. rewrite EH in TE. cbn [snd] in TE. split; [split|].
  - intros Z l I. pose proof (total_zero _ _ _ TE Z) as K. destruct (In_nth _ _ [] I) as (j & Hj & <-). destruct (K j 3%nat (face_ops (nth j faces []) ++ es)) as (v & NZ & P).
    + apply in_map_iff. exists (j, nth j faces []). split; auto. pose proof (combine_nth (seq 0 6) faces j 0%nat [] eq_refl) as CN. rewrite seq_nth in CN by exact Hj. cbn [Nat.add] in CN. rewrite <- CN. apply nth_In. exact Hj.
    + rewrite U in P. eauto.
  - intros H. apply (total_unique _ _ _ _ TE). clear TE. assert (Q : forall ls is, (forall l, In l ls -> exists v, v4dot v v <> 0 /\ in_plane v (pr_traj r) (face_clouds l)) ->
      total_error (pr_traj r) (map (fun q : nat * list V3 => (fst q, (3%nat, face_ops (snd q) ++ es))) (combine is ls)) 0).
    { induction ls as [|l ls IHl]; intros [|i is] HH; try constructor. cbn [combine map fst snd]. replace 0 with (0 + 0) by ring. constructor; [|apply IHl; intros; apply HH; right; auto].
      rewrite U. destruct (HH l (or_introl eq_refl)) as (v & NZ & P). eapply least_zero; eauto. }
    apply Q, H.
  - exact (total_nonneg _ _ _ TE).
Qed.
Lemma box_walls l : In l faces -> exists w, v4dot w w <> 0 /\ in_plane w [m4id; lifted; m4id] (face_clouds l).
Proof.
  intros I. assert (exists w, In (w, l) (combine walls faces)) as (w & IW).
  { unfold faces in I. cbn [In] in I. repeat destruct I as [<- | I]; [..|destruct I]; eexists; unfold walls, faces; cbn [combine In]; eauto 10. }
  pose proof walls_on as W. rewrite Forall_forall in W. destruct (W _ IW) as (NZ & P & _). cbn [fst snd] in NZ, P. exists w. split; auto.
  intros T c x IT Ix. cbn [face_clouds combine In] in IT. destruct IT as [E | [E | [E | []]]]; injection E as <- <-.
  - rewrite move_id. auto.
  - apply in_map_iff in Ix. destruct Ix as (y & <- & Iy). replace (move lifted (v3sub y lift)) with y; auto. unfold move, lifted, se3_of_Rt, lift. cbn [mR mt]. destruct y. lin.
  - rewrite move_id. auto.
Qed.
Lemma box_sizes ops : Forall (fun o => o = RError \/ exists m s, o = RSolve m s) ops -> fst (history (box ++ ops)) = 3%nat /\ sizes 3 (snd (history (box ++ ops))).
Proof.
  intros F. destruct (box_more ops F) as (es & E & _). rewrite E. split; auto. cbn [snd]. unfold sizes. apply Forall_map, Forall_forall. reflexivity.
Qed.
(** whatever the optimizer does from there, the error grows *)
Lemma box_worse k m s s' : (forall Q, m4tr Q = Q -> exact4 (k_eigs k) Q) -> (forall H, svd_of H (k_svd k H)) -> optimizing m -> exists r0 r1 x1 r2 x2 e2,
  reg_run k box preg_new = Some r0 /\ preg_solve (k_eigs k) (k_inv k) (k_svd k) INITIALIZE s r0 = Some (1%nat, r1) /\ get_current_error (k_eigs k) r1 = Some (0, x1) /\
  preg_solve (k_eigs k) (k_inv k) (k_svd k) m s' r1 = Some (0%nat, r2) /\ get_current_error (k_eigs k) r2 = Some (e2, x2) /\ 0 < e2.
Proof.
  intros EX SV M. destruct (box_settled k s SV) as (r0 & r1 & E0 & E1 & TR1). destruct (enabled_run k box box_enabled) as (_ & _ & FB).
  assert (R1 : reg_run k (box ++ [RSolve INITIALIZE s]) preg_new = Some r1) by (rewrite reg_run_app, E0; cbn [reg_run reg_step]; rewrite E1; reflexivity).
  assert (F1 : Forall (fun o => o = RError \/ exists m s, o = RSolve m s) [RSolve INITIALIZE s]) by (constructor; [right; eauto | constructor]).
  assert (F2 : Forall (fun o => o = RError \/ exists m s, o = RSolve m s) [RSolve INITIALIZE s; RSolve m s']) by (constructor; [right; eauto | constructor; [right; eauto | constructor]]).
  destruct (box_sizes _ F1) as [P1 S1]. destruct (box_sizes _ F2) as [P2 S2].
  assert (A1 : after k (history (box ++ [RSolve INITIALIZE s])) r1) by (apply after_run; auto; apply Forall_app; split; auto; repeat constructor).
  pose proof (after_ready k _ r1 A1) as RD1. rewrite P1 in RD1. specialize (RD1 ltac:(lia) S1).
  destruct (ready_error (k_eigs k) 3 r1 RD1) as (e1 & x1 & G1 & _).
  destruct (box_error_zero k _ r1 e1 x1 EX F1 R1 G1) as [[_ Z1] _]. assert (e1 = 0) as -> by (apply Z1; rewrite TR1; apply box_walls).
  destruct (solve_defined (k_eigs k) (k_inv k) (k_svd k) m s' 3 r1 ltac:(lia) RD1 M) as (r2 & E2 & RD2).
  assert (R2 : reg_run k (box ++ [RSolve INITIALIZE s; RSolve m s']) preg_new = Some r2) by (rewrite reg_run_app, E0; cbn [reg_run reg_step]; rewrite E1; cbn [option_map snd]; rewrite E2; reflexivity).
  assert (A2 : after k (history (box ++ [RSolve INITIALIZE s; RSolve m s'])) r2) by (apply after_run; auto; apply Forall_app; split; auto; repeat constructor).
  destruct (ready_error (k_eigs k) 3 r2 RD2) as (e2 & x2 & G2 & _).
  exists r0, r1, x1, r2, x2, e2. repeat (split; [assumption|]).
  destruct (box_error_zero k _ r2 e2 x2 EX F2 R2 G2) as [[Z2 _] NN]. destruct (Req_dec e2 0) as [Z | NZ]; [exfalso|lra].
  specialize (Z2 Z). pose proof (solve_lined (k_eigs k) (k_inv k) (k_svd k) m s' 3 r1 0%nat r2 ltac:(lia) RD1 M E2) as (_ & _ & L2 & O2). assert (FP : nth_error (pr_traj r2) 0 = Some m4id) by (apply (af_first _ _ _ A2); rewrite L2; lia). pose proof (af_hom _ _ _ A2) as HM. apply Forall_inv_tail in HM.
  apply line_velocity in O2; [|lia | exact L2]. destruct O2 as (T & NT & CV). specialize (CV 1%nat ltac:(lia) ltac:(lia)).
  destruct (pr_traj r2) as [|a [|b [|c [|d l]]]]; try discriminate L2. cbn in FP, NT. injection FP as ->. injection NT as ->. cbn [nth_error] in CV. injection CV as ->.
  destruct (box_forces _ T (Forall_inv (Forall_inv_tail (Forall_inv_tail HM))) Z2) as [-> K].
  specialize (K _ (or_introl eq_refl)). rewrite se3_ln_vee_id in K. replace (v6scal _ v6zero) with v6zero in K by (unfold v6zero; lin). rewrite se3_of_zero, move_id in K. unfold plane_at, lift in K. lin_unfold_in K. lra.
Qed.
