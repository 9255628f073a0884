(** C81: one Gauss-Newton step finds the best map from known poses. *)
Require Import Reals List Arith Lia Lra Bool Permutation.
From Verif Require Import Lin SpecGeom SO3 SE3 AngleProofs Nodes Robust Graph Sums Solve SpecSolve SolveFrame SolveSums SolveBuild SolveProofs Session SessionProofs.
From Verif Require Import Factors SpecFactors FactorsSession SpecFrame Gauss FrameSolve SpecSolvable SolvableFactors SolvableSession DenseProofs PropFrame PropSolvable SpecMapping MappingSession.
Import ListNotations.
Local Open Scope R_scope.

(** *** One step reaches the smallest chi2 there is, at the only place where it is reached *)
Theorem C81_best : forall lin cs k lambda tol s, exact lin -> typed [] cs -> mapping cs -> Forall solid_call cs -> Forall call_info cs ->
  (forall i, (i < length (nodes_of cs))%nat -> held cs i) -> pycalls lin QUADRATIC (solver_new world_new) cs = Some s ->
  exists s', solve lin GN k lambda tol s = Some s' /\ forall st, rearranged cs (state_of (s_w s)) st ->
    chi2_of (s_w s') <= lsum cs (call_chi2 st) /\
    (lsum cs (call_chi2 st) <= chi2_of (s_w s') -> forall j, (j < length (nodes_of cs))%nat -> st j = state_of (s_w s') j).
Proof.
  intros lin cs k la tol s X T Mp So P Hd E. destruct (session_inv lin QUADRATIC cs T) as (s0 & E0 & V & _). rewrite E in E0. injection E0 as <-.
  destruct (solve_total lin GN k la tol s (gd_wf _ (iv_good _ _ _ V))) as (s' & E'). exists s'. split; auto. intros st Re.
  destruct (mapping_step lin cs k la tol s s' X T Mp So P Hd E E') as (_ & _ & _ & Rs).
  apply (mapping_best lin cs k la tol s s' X T Mp So P Hd E E'). intros j m v Ej. specialize (Re j m v Ej). specialize (Rs j m v Ej). destruct m; auto. congruence.
Qed.
Print Assumptions C81_best.

(** *** The result depends on the measurements and the known poses only: not on
    the order of the measurements, the initial positions of the landmarks or
    earlier solves *)
Lemma measured_chi2 cs st : lsum cs (call_chi2 st) = lsum (flat_map measured cs) (call_chi2 st).
Proof.
  rewrite lsum_flat_map. apply lsum_ext. intros c _. destruct c; cbn [measured]; rewrite ?lsum_cons, lsum_nil, ?Rplus_0_r; auto;
  unfold call_chi2, call_factor; cbn [pycall_op]; try (destruct (_ <? _)%nat; reflexivity); reflexivity.
Qed.
Theorem C81_start : forall lin cs1 cs2 k1 k2 lambda1 lambda2 tol1 tol2 s1 s2 t1 t2, exact lin ->
  typed [] cs1 -> mapping cs1 -> Forall solid_call cs1 -> Forall call_info cs1 -> (forall i, (i < length (nodes_of cs1))%nat -> held cs1 i) ->
  typed [] cs2 -> mapping cs2 -> Forall solid_call cs2 -> Forall call_info cs2 -> (forall i, (i < length (nodes_of cs2))%nat -> held cs2 i) ->
  Permutation (flat_map measured cs1) (flat_map measured cs2) -> map fst (nodes_of cs1) = map fst (nodes_of cs2) ->
  pycalls lin QUADRATIC (solver_new world_new) cs1 = Some s1 -> pycalls lin QUADRATIC (solver_new world_new) cs2 = Some s2 ->
  (forall i v, nth_error (nodes_of cs1) i = Some (ANCHOR, v) -> state_of (s_w s1) i = state_of (s_w s2) i) ->
  solve lin GN k1 lambda1 tol1 s1 = Some t1 -> solve lin GN k2 lambda2 tol2 s2 = Some t2 ->
  forall j, (j < length (nodes_of cs1))%nat -> state_of (s_w t1) j = state_of (s_w t2) j.
Proof.
  intros lin cs1 cs2 k1 k2 la1 la2 tol1 tol2 s1 s2 t1 t2 X T1 M1 So1 P1 H1 T2 M2 So2 P2 H2 Pm Mo E1 E2 An F1 F2.
  destruct (mapping_step lin cs1 k1 la1 tol1 s1 t1 X T1 M1 So1 P1 H1 E1 F1) as (_ & _ & _ & R1). destruct (mapping_step lin cs2 k2 la2 tol2 s2 t2 X T2 M2 So2 P2 H2 E2 F2) as (_ & _ & _ & R2).
  pose proof (mapping_inv' lin cs1 k1 la1 tol1 s1 t1 T1 So1 E1 F1) as V1. pose proof (mapping_inv' lin cs2 k2 la2 tol2 s2 t2 T2 So2 E2 F2) as V2.
  assert (Mode : forall i m v, nth_error (nodes_of cs1) i = Some (m, v) -> exists v', nth_error (nodes_of cs2) i = Some (m, v')).
  { intros i m v Hi. pose proof (f_equal (fun l => nth_error l i) Mo) as Q. cbv beta in Q. rewrite !nth_error_map, Hi in Q. cbn in Q. destruct (nth_error (nodes_of cs2) i) as [[m' v']|]; [|discriminate]. injection Q as ->. eauto. }
  assert (Len : length (nodes_of cs2) = length (nodes_of cs1)) by (rewrite <- (map_length fst (nodes_of cs1)), Mo, map_length; reflexivity).
  assert (R12 : rearranged cs1 (state_of (s_w t1)) (state_of (s_w t2))).
  { intros i m v Hi. specialize (R1 i m v Hi). destruct (Mode i m v Hi) as [v' Hi']. specialize (R2 i m v' Hi'). destruct m; auto. specialize (An i v Hi). congruence. }
  assert (R21 : rearranged cs2 (state_of (s_w t2)) (state_of (s_w t1))).
  { intros i m v Hi. assert (Li : (i < length (nodes_of cs1))%nat) by (rewrite <- Len; apply nth_error_Some; congruence). destruct (nth_error (nodes_of cs1) i) as [[m' v']|] eqn:Hi'; [|apply nth_error_None in Hi'; lia].
    destruct (Mode i m' v' Hi') as [v'' Q]. rewrite Hi in Q. injection Q as -> _. specialize (R12 i m' v' Hi'). specialize (R1 i m' v' Hi'). destruct m'; auto. }
  destruct (mapping_best lin cs1 k1 la1 tol1 s1 t1 X T1 M1 So1 P1 H1 E1 F1 (state_of (s_w t2)) R12) as [L1 U1]. destruct (mapping_best lin cs2 k2 la2 tol2 s2 t2 X T2 M2 So2 P2 H2 E2 F2 (state_of (s_w t1)) R21) as [L2 _].
  rewrite (tracks_chi2 _ cs1 _ (iv_tracks _ _ _ V1)) in L1, U1. rewrite (tracks_chi2 _ cs2 _ (iv_tracks _ _ _ V2)) in L2.
  assert (Q : forall st, lsum cs1 (call_chi2 st) = lsum cs2 (call_chi2 st)) by (intros st; rewrite (measured_chi2 cs1), (measured_chi2 cs2); apply lsum_perm; exact Pm). rewrite !Q in U1.
  intros j Hj. symmetry. apply U1; auto.
Qed.
Print Assumptions C81_start.
(** solving again changes nothing *)
Theorem C81_again : forall lin cs k k' lambda lambda' tol tol' s s' s'', exact lin -> typed [] cs -> mapping cs -> Forall solid_call cs -> Forall call_info cs ->
  (forall i, (i < length (nodes_of cs))%nat -> held cs i) -> pycalls lin QUADRATIC (solver_new world_new) cs = Some s ->
  solve lin GN k lambda tol s = Some s' -> solve lin GN k' lambda' tol' s' = Some s'' -> forall j, (j < length (nodes_of cs))%nat -> state_of (s_w s'') j = state_of (s_w s') j.
Proof.
  intros lin cs k k' la la' tol tol' s s' s'' X T Mp So P Hd E E1 E2 j Hj. set (cs2 := cs ++ [CSolve GN k la tol]).
  assert (Nd : nodes_of cs2 = nodes_of cs) by (unfold nodes_of, cs2; rewrite flat_map_app; cbn; apply app_nil_r).
  assert (T2 : typed [] cs2) by (apply typed_app; split; auto; cbn; auto). assert (Em : pycalls lin QUADRATIC (solver_new world_new) cs2 = Some s') by (unfold cs2; rewrite calls_app, E; unfold pycalls; cbn [map pyrun pycall_op pystep]; rewrite E1; reflexivity).
  symmetry. apply (C81_start lin cs cs2 k k' la la' tol tol' s s' s' s''); auto.
  - unfold mapping. rewrite Nd. exact Mp.
  - unfold cs2. apply Forall_app. split; auto. constructor; [exact I|constructor].
  - unfold cs2. apply Forall_app. split; auto. constructor; [exact I|constructor].
  - rewrite Nd. intros i Hi. specialize (Hd i Hi). clear - Hd. assert (In1 : forall c, In c cs -> In c cs2) by (intros c I; apply in_or_app; auto).
    assert (Nd : nodes_of cs2 = nodes_of cs) by (unfold nodes_of, cs2; rewrite flat_map_app; cbn; apply app_nil_r).
    induction Hd; [eapply held_anchor; rewrite Nd; eauto|eapply held_pose2d|eapply held_pose3d|eapply held_2poses2d|eapply held_2poses2d'|eapply held_odom|eapply held_odom'|eapply held_2poses3d|eapply held_2poses3d'|eapply held_landmark2d|eapply held_landmark3d|eapply held_plane]; eauto.
  - unfold cs2. rewrite flat_map_app. cbn. rewrite app_nil_r. apply Permutation_refl.
  - rewrite Nd. reflexivity.
  - intros i v Hi. destruct (mapping_step lin cs k la tol s s' X T Mp So P Hd E E1) as (_ & _ & _ & Rs). symmetry. exact (Rs i ANCHOR v Hi).
Qed.
Print Assumptions C81_again.

(** *** With observations that are equally good in all directions: the weighted mean *)
Theorem C81_mean : forall lin cs k lambda tol s s' j v, exact lin -> typed [] cs -> mapping cs -> Forall solid_call cs -> Forall call_info cs ->
  (forall i, (i < length (nodes_of cs))%nat -> held cs i) -> pycalls lin QUADRATIC (solver_new world_new) cs = Some s -> solve lin GN k lambda tol s = Some s' ->
  nth_error (nodes_of cs) j = Some (STANDARD, v) ->
  (forall obs i W u, In (CLandmark3d obs i j W u) cs -> round_info W /\ exists T, state_of (s_w s) i = P3 T /\ rigid T) ->
  0 < observed cs j (fun _ _ => 1) /\
  state_of (s_w s') j = L3 (mkV3 (observed cs j (fun obs i => vx (in_map (state_of (s_w s) i) obs)) / observed cs j (fun _ _ => 1))
                                 (observed cs j (fun obs i => vy (in_map (state_of (s_w s) i) obs)) / observed cs j (fun _ _ => 1))
                                 (observed cs j (fun obs i => vz (in_map (state_of (s_w s) i) obs)) / observed cs j (fun _ _ => 1))).
Proof.
  intros lin cs k la tol s s' j v X T Mp So P Hd E E' Ej Ob.
  destruct (mapping_step lin cs k la tol s s' X T Mp So P Hd E E') as (_ & _ & _ & Rs). pose proof (Rs j _ v Ej) as [p Ep].
  assert (Kn : forall i m q, nth_error (nodes_of cs) i = Some (m, q) -> nth_error (fold_left kinds_after cs []) i = Some (kind_of q)) by (intros i m q Q; rewrite kinds_nodes; cbn [app]; rewrite nth_error_map, Q; reflexivity).
  assert (Kj : nth_error (fold_left kinds_after cs []) j = Some KL3) by (rewrite <- (Mp j _ v Ej) by discriminate; eapply Kn; eauto).
  assert (St : forall obs i W u, In (CLandmark3d obs i j W u) cs -> i <> j /\ state_of (s_w s') i = state_of (s_w s) i).
  { intros obs i W u I. pose proof (typed_in cs _ [] T I) as Ty. cbn [typed1] in Ty. destruct Ty as [Ti _]. split; [intros ->; congruence|].
    assert (Li : (i < length (nodes_of cs))%nat) by (rewrite <- session_len; apply nth_error_Some; congruence). destruct (nth_error (nodes_of cs) i) as [[m q]|] eqn:Ei; [|apply nth_error_None in Ei; lia].
    rewrite (Kn i m q Ei) in Ti. injection Ti as Kq. specialize (Rs i m q Ei). specialize (Mp i m q Ei). destruct m; auto; rewrite Mp in Kq; discriminate. }
  assert (Wp : forall obs i W u, In (CLandmark3d obs i j W u) cs -> 0 <= W 0%nat 0%nat).
  { intros obs i W u I. rewrite Forall_forall in P. pose proof (P _ I) as Q. unfold call_info, call_factor in Q. cbn [pycall_op] in Q. destruct (i <? j)%nat; destruct Q as [_ Q]; specialize (Q (fun k => if (k =? 0)%nat then 1 else 0)); unfold quad in Q; cbn in Q; lra. }
  assert (Ob' : forall obs i W u, In (CLandmark3d obs i j W u) cs -> i <> j /\ round_info W /\ 0 <= W 0%nat 0%nat /\ exists A, state_of (s_w s') i = P3 A /\ rigid A).
  { intros obs i W u I. destruct (St _ _ _ _ I) as [N Q]. destruct (Ob _ _ _ _ I) as (Ro & A & EA & Rg). split; auto. split; auto. split; [eapply Wp; eauto|]. exists A. split; auto. congruence. }
  assert (Best : forall e u, lsum cs (call_chi2 (state_of (s_w s'))) <= lsum cs (call_chi2 (set_st (state_of (s_w s')) j (step_to p u e)))).
  { intros e u. destruct (mapping_best lin cs k la tol s s' X T Mp So P Hd E E' (set_st (state_of (s_w s')) j (step_to p u e))) as [L _].
    - intros i m q Hi. unfold set_st. destruct (Nat.eqb_spec i j) as [->|]. { rewrite Ej in Hi. injection Hi as <- <-. unfold step_to. eauto. } specialize (Rs i m q Hi). destruct m; auto.
    - rewrite <- (tracks_chi2 _ cs _ (iv_tracks _ _ _ (mapping_inv' lin cs k la tol s s' T So E E'))). exact L. }
  assert (Pos : 0 < observed cs j (fun _ _ => 1)).
  { assert (Hj : (j < length (nodes_of cs))%nat) by (apply nth_error_Some; congruence). assert (W0 : exists obs i W u, In (CLandmark3d obs i j W u) cs /\ positive 3 W).
    { pose proof (Hd j Hj) as H. clear - H Ej Kj T. inversion H; subst; try (match goal with I : In _ cs |- _ => pose proof (typed_in cs _ [] T I) as Ty; cbn [typed1] in Ty; intuition congruence end). congruence. eauto 10. }
    destruct W0 as (obs & i & W & u & I & Po). unfold observed. set (f := fun c => _). assert (Nn : forall c, In c cs -> 0 <= f c).
    { intros c Ic. unfold f. destruct c; try lra. destruct (Nat.eqb_spec idL j) as [->|]; [|lra]. rewrite Rmult_1_r. eapply Wp; eauto. }
    destruct (Rle_lt_or_eq_dec 0 (lsum cs f) (lsum_nonneg cs f Nn)) as [|Z]; auto. exfalso. symmetry in Z. pose proof (lsum_zero_all cs f Nn Z _ I) as Q. unfold f in Q. rewrite Nat.eqb_refl, Rmult_1_r in Q.
    specialize (Po (fun k => if (k =? 0)%nat then 1 else 0)). assert (A : quad 3 W (fun k => if (k =? 0)%nat then 1 else 0) (fun k => if (k =? 0)%nat then 1 else 0) = 0) by (unfold quad; cbn; rewrite Q; ring).
    specialize (Po A 0%nat ltac:(lia)). cbn in Po. lra. }
  split; auto. rewrite Ep. f_equal.
  assert (Same : forall f : V3 -> R, observed cs j (fun obs i => f (in_map (state_of (s_w s) i) obs)) = observed cs j (fun obs i => f (in_map (state_of (s_w s') i) obs))).
  { intros f. unfold observed. apply lsum_ext. intros c Ic. destruct c; auto. destruct (Nat.eqb_spec idL j) as [->|]; auto. destruct (St _ _ _ _ Ic) as [_ ->]. reflexivity. }
  rewrite (Same vx), (Same vy), (Same vz).
  rewrite <- (mean_coord cs (state_of (s_w s')) j p T Kj Ep Ob' Best vx (mkV3 1 0 0)) by (intros; unfold v3dot; cbn; ring).
  rewrite <- (mean_coord cs (state_of (s_w s')) j p T Kj Ep Ob' Best vy (mkV3 0 1 0)) by (intros; unfold v3dot; cbn; ring).
  rewrite <- (mean_coord cs (state_of (s_w s')) j p T Kj Ep Ob' Best vz (mkV3 0 0 1)) by (intros; unfold v3dot; cbn; ring).
  destruct p as [a b c]. cbn [vx vy vz]. f_equal; field; lra.
Qed.
Print Assumptions C81_mean.

(** *** Examples: a landmark seen from the origin and from a pose turned by a
    quarter about z; a second landmark seen once; a known relative pose *)
Definition quarter : M4 := mkM4 (mkM3 0 (-1) 0 1 0 0 0 0 1) (mkV3 1 0 0) v3zero 1.
Lemma quarter_rigid : rigid quarter. Proof. unfold rigid, rotation, orthogonal, quarter, m3mul, m3tr, m3id, m3det. cbn. repeat split; try ring. f_equal; ring. Qed.
Lemma id_rigid : rigid m4id. Proof. unfold rigid, rotation, orthogonal, m4id, m3mul, m3tr, m3id, m3det. cbn. repeat split; try ring. f_equal; ring. Qed.
Lemma rigid_solid A : rigid A -> solid A. Proof. intros ((_ & D) & B & C). repeat split; auto. rewrite D. lra. Qed.
Definition double : nat -> nat -> R := fun i j => 2 * id3 i j.
Lemma id3_round : round_info id3. Proof. intros i j _ _. unfold id3. destruct (Nat.eqb i j); reflexivity. Qed.
Lemma double_round : round_info double. Proof. intros i j _ _. unfold double, id3. destruct (Nat.eqb i j); cbn; ring. Qed.
Lemma double_quad n x y : quad n double x y = 2 * quad n id3 x y.
Proof. unfold quad, double. rewrite <- sumn_scal. apply sumn_ext; intros. rewrite <- sumn_scal. apply sumn_ext; intros. ring. Qed.
Lemma double_proper n : proper n double.
Proof. destruct (id3_proper n) as [Sy Ps]. split. - intros i j Hi Hj. unfold double. rewrite (Sy i j Hi Hj). reflexivity. - intros x. rewrite double_quad. specialize (Ps x). lra. Qed.
Lemma double_positive n : positive n double.
Proof. intros x Z. rewrite double_quad in Z. apply (id_positive n). lra. Qed.
Definition map_calls (A : M4) (p q : V3) : list pycall :=
  [CNode ANCHOR (P3 m4id); CNode STANDARD (L3 p); CNode ANCHOR (P3 A); CLandmark3d (mkV3 1 2 3) 0 1 id3 true; CLandmark3d (mkV3 4 5 6) 2 1 double false;
   CNode STANDARD (L3 q); CLandmark3d (mkV3 0 0 7) 2 3 id3 false; C2Poses3d m4id 0 2 id3 false].
Lemma map_calls_ok A p q : rigid A -> let cs := map_calls A p q in
  typed [] cs /\ mapping cs /\ Forall solid_call cs /\ Forall call_info cs /\ (forall i, (i < length (nodes_of cs))%nat -> held cs i).
Proof.
  intros Rg cs. split. { cbn. repeat split; auto; discriminate. }
  split. { intros [|[|[|[|[|i]]]]] m v H N; cbn in H; try discriminate; injection H as <- <-; try congruence; reflexivity. }
  split. { unfold cs, map_calls. repeat (apply Forall_cons; [cbn; first [exact I | exact solid_id | apply (rigid_solid A Rg)]|]). constructor. }
  split. { unfold cs, map_calls. repeat (apply Forall_cons; [cbn; first [exact I | exact (id3_proper 3) | exact (double_proper 3) | exact (id3_proper 6)]|]). constructor. }
  assert (H0 : held cs 0) by (eapply held_anchor; reflexivity). assert (H2 : held cs 2) by (eapply held_anchor; reflexivity).
  intros i Hi. cbn in Hi. destruct i as [|[|[|[|i]]]]; auto; try lia.
  - eapply held_landmark3d; [|apply (id_positive 3)|exact H0]. unfold cs, map_calls; cbn; auto 20.
  - eapply held_landmark3d; [|apply (id_positive 3)|exact H2]. unfold cs, map_calls; cbn; auto 20.
Qed.
Example C81_ex_best : forall p q p' q', exists s, let cs := map_calls quarter p q in exact gauss /\ typed [] cs /\ mapping cs /\ Forall solid_call cs /\ Forall call_info cs /\
  (forall i, (i < length (nodes_of cs))%nat -> held cs i) /\ pycalls gauss QUADRATIC (solver_new world_new) cs = Some s /\
  rearranged cs (state_of (s_w s)) (set_st (set_st (state_of (s_w s)) 1 (L3 p')) 3 (L3 q')).
Proof.
  intros p q p' q'. destruct (map_calls_ok quarter p q quarter_rigid) as (T & M & So & P & Hd). destruct (session_inv gauss QUADRATIC _ T) as (s & E & _). exists s. intros cs. split; [exact gauss_exact|]. do 6 (split; [assumption|]).
  unfold cs. generalize quarter. intros A. intros [|[|[|[|i]]]] m v H; [injection H as <- <-|injection H as <- <-|injection H as <- <-|injection H as <- <-|exfalso; destruct i; discriminate H]; unfold set_st; cbn [Nat.eqb]; [reflexivity|exists p'; reflexivity|reflexivity|exists q'; reflexivity].
Qed.
(** other initial positions, another order, and an earlier solve *)
Definition map_calls' (A : M4) (p q : V3) : list pycall :=
  [CNode ANCHOR (P3 m4id); CNode STANDARD (L3 q); CNode ANCHOR (P3 A); CNode STANDARD (L3 p); CLandmark3d (mkV3 4 5 6) 2 1 double true; CLandmark3d (mkV3 1 2 3) 0 1 id3 true; CChi2 true;
   CLandmark3d (mkV3 0 0 7) 2 3 id3 false; CSolve LM 2 0 0; C2Poses3d m4id 0 2 id3 false].
Example C81_ex_start : forall p q, let cs1 := map_calls quarter p q in let cs2 := map_calls' quarter p q in
  Permutation (flat_map measured cs1) (flat_map measured cs2) /\ map fst (nodes_of cs1) = map fst (nodes_of cs2) /\
  typed [] cs2 /\ mapping cs2 /\ Forall solid_call cs2 /\ Forall call_info cs2 /\ (forall i, (i < length (nodes_of cs2))%nat -> held cs2 i).
Proof.
  intros p q cs1 cs2. split. { unfold cs1, cs2, map_calls, map_calls'. cbn. apply perm_swap. } split; [reflexivity|]. split. { cbn. repeat split; auto; discriminate. }
  split. { intros [|[|[|[|[|i]]]]] m v H N; cbn in H; try discriminate; injection H as <- <-; try congruence; reflexivity. }
  split. { unfold cs2, map_calls'. repeat (apply Forall_cons; [cbn; first [exact I | exact solid_id | apply (rigid_solid quarter quarter_rigid)]|]). constructor. }
  split. { unfold cs2, map_calls'. repeat (apply Forall_cons; [cbn; first [exact I | exact (id3_proper 3) | exact (double_proper 3) | exact (id3_proper 6)]|]). constructor. }
  assert (H0 : held cs2 0) by (eapply held_anchor; reflexivity). assert (H2 : held cs2 2) by (eapply held_anchor; reflexivity).
  intros i Hi. cbn in Hi. destruct i as [|[|[|[|i]]]]; auto; try lia.
  - eapply held_landmark3d; [|apply (id_positive 3)|exact H0]. unfold cs2, map_calls'; cbn; auto 20.
  - eapply held_landmark3d; [|apply (id_positive 3)|exact H2]. unfold cs2, map_calls'; cbn; auto 20.
Qed.
Lemma map_states A p q : exists s, pycalls gauss QUADRATIC (solver_new world_new) (map_calls A p q) = Some s /\ state_of (s_w s) 0 = P3 m4id /\ state_of (s_w s) 2 = P3 A.
Proof. eexists. split; [cbv -[m4id id3 double IZR gauss res_landmark3d jac_landmark3d res_2poses3d jac_2poses3d init_2poses3d lvec lmat beside l3 l6 R0 R1]; reflexivity|]. split; reflexivity. Qed.
(** the first landmark: (1 (1,2,3) + 2 (-4,4,6)) / 3 = (-7/3, 10/3, 5) *)
Example C81_ex_mean : forall p q, exists s, let cs := map_calls quarter p q in pycalls gauss QUADRATIC (solver_new world_new) cs = Some s /\
  nth_error (nodes_of cs) 1 = Some (STANDARD, L3 p) /\ (forall obs i W u, In (CLandmark3d obs i 1 W u) cs -> round_info W /\ exists T, state_of (s_w s) i = P3 T /\ rigid T) /\
  forall s', solve gauss GN 1 0 0 s = Some s' -> state_of (s_w s') 1 = L3 (mkV3 (-7 / 3) (10 / 3) 5).
Proof.
  intros p q. destruct (map_states quarter p q) as (s & E & S0 & S2). exists s. intros cs. split; auto. split; [reflexivity|].
  assert (Ob : forall obs i W u, In (CLandmark3d obs i 1 W u) cs -> round_info W /\ exists T, state_of (s_w s) i = P3 T /\ rigid T).
  { intros obs i W u I. unfold cs, map_calls in I. destruct I as [H|[H|[H|[H|[H|[H|[H|[H|[]]]]]]]]]; [discriminate H|discriminate H|discriminate H| | |discriminate H|discriminate H|discriminate H]; injection H as <- <- <- <-.
    - split; [exact id3_round|]. exists m4id. split; [exact S0|exact id_rigid].
    - split; [exact double_round|]. exists quarter. split; [exact S2|exact quarter_rigid]. }
  split; auto. intros s' E'. destruct (map_calls_ok quarter p q quarter_rigid) as (T & M & So & P & Hd).
  destruct (C81_mean gauss cs 1 0 0 s s' 1 (L3 p) gauss_exact T M So P Hd E E' eq_refl Ob) as [_ Q]. rewrite Q. unfold observed, cs, map_calls. rewrite !lsum_cons, !lsum_nil. cbn [Nat.eqb]. rewrite S0, S2. unfold in_map, quarter, m4id, m3id, v3zero, m3app, v3add, double, id3. cbn. f_equal. f_equal; field.
Qed.
