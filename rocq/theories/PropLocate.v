(** C91: which observations of known landmarks and planes locate a pose. *)
Require Import Reals List Arith Lia Lra Bool.
From Verif Require Import Lin LinFacts SpecGeom SO3 SE3 SO3Exp SE3Alg AngleProofs Nodes Robust Graph Sums Solve SpecSolve SolveFrame SolveSums SolveBuild SolveProofs Session SessionProofs.
From Verif Require Import Factors SpecFactors FactorsSession SpecFrame Gauss FrameSolve SpecSolvable SolvableFactors SolvableSession FloatSession PropFrame PropSolvable PropFactors SpecLocate Locate.
Import ListNotations.
Local Open Scope R_scope.

(** *** Every node located: the Gauss-Newton system has exactly one solution *)
Theorem C91_located : forall lin rob cs s, rob <> RANSAC -> typed [] cs -> Forall solid_call cs -> Forall call_info cs -> pycalls lin rob (solver_new world_new) cs = Some s ->
  (forall i, (i < length (nodes_of cs))%nat -> located cs (state_of (s_w s)) i) ->
  exists b, build_problem false s = Some b /\ nonsingular (g_stateDim (w_graph (s_w s))) (s_L b).
Proof.
  intros lin rob cs s R T So P E H. destruct (session_inv lin rob cs T) as (s0 & E0 & V & Fi). rewrite E in E0. injection E0 as <-. destruct (build_wf s (gd_wf _ (iv_good _ _ _ V))) as (b & Eb & _).
  assert (Q : build_problem false s = Some (build_info_adjacency b)) by (unfold build_problem; rewrite Eb; reflexivity).
  exists (build_info_adjacency b). split; auto. apply (located_regular rob cs s); auto.
Qed.
Print Assumptions C91_located.

(** *** One pose among known nodes: it is determined exactly when its observations
    notice every motion *)
Theorem C91_localise : forall lin rob cs i x s, rob <> RANSAC -> typed [] cs -> Forall solid_call cs -> Forall call_info cs -> Forall certain cs ->
  nth_error (nodes_of cs) i = Some (STANDARD, x) -> kind_of x = KP3 -> only_observes cs i -> (forall j, (j < length (nodes_of cs))%nat -> j <> i -> held cs j) ->
  pycalls lin rob (solver_new world_new) cs = Some s ->
  exists b, build_problem false s = Some b /\
    (nonsingular (g_stateDim (w_graph (s_w s))) (s_L b) <-> forall om v, unnoticed cs (state_of (s_w s)) i om v -> om = v3zero /\ v = v3zero).
Proof.
  intros lin rob cs i x s R T So P Ce Hn Kx Ob Hd E. destruct (session_inv lin rob cs T) as (s0 & E0 & V & Fi). rewrite E in E0. injection E0 as <-. specialize (Fi So). destruct (build_wf s (gd_wf _ (iv_good _ _ _ V))) as (b & Eb & _).
  assert (Q : build_problem false s = Some (build_info_adjacency b)) by (unfold build_problem; rewrite Eb; reflexivity).
  exists (build_info_adjacency b). split; auto. split.
  - intros NS om v Un. assert (D : forall a : V3, a = v3zero \/ a <> v3zero).
    { intros [a b' c]. destruct (Req_dec a 0); [|right; unfold v3zero; congruence]. destruct (Req_dec b' 0); [|right; unfold v3zero; congruence]. destruct (Req_dec c 0); [|right; unfold v3zero; congruence]. left. subst. reflexivity. }
    destruct (D om); [destruct (D v); auto|]; exfalso; refine (ambiguous_singular rob cs s _ false i x om v T V Fi Hn Kx Ob Un _ Q NS); auto.
  - intros No. apply (located_regular rob cs s); auto. intros j Hj. destruct (Nat.eq_dec j i) as [->|Nj]; [|apply located_held; auto].
    destruct (node_std rob cs _ i x V Hn) as (l & G & _ & K). rewrite Kx in K. destruct (state_of (s_w s) i) as [ |A| | |] eqn:Si; try discriminate.
    apply (located_3d cs _ cs i A); auto.
    + intros c Ic. split; auto. rewrite Forall_forall in Ce. auto.
    + intros c k Ic Oc. assert (Hk : exists kk, nth_error (fold_left kinds_after cs []) k = Some kk /\ kk <> KP3).
      { pose proof (typed_in cs _ [] T Ic) as Ty. destruct c; try discriminate; cbn in Oc; injection Oc as <-; cbn [typed1] in Ty; eexists; split; try apply Ty; discriminate. }
      destruct Hk as (kk & Hk & Nk). apply located_held. apply Hd.
      * rewrite kinds_nodes in Hk. cbn [app] in Hk. assert (L : (k < length (map (fun p => kind_of (snd p)) (nodes_of cs)))%nat) by (apply nth_error_Some; congruence). rewrite map_length in L. exact L.
      * intros ->. destruct (state_kind rob cs _ i _ V Hk) as (_ & _ & Ki & _). rewrite Si in Ki. cbn in Ki. congruence.
Qed.
Print Assumptions C91_localise.

(** *** Three landmarks that are not on a line, three planes with independent normals,
    or a landmark and two planes that are not parallel *)
Theorem C91_landmarks : forall cs st i T j k l obs obs' obs'' W W' W'' u u' u'' a b c, st i = P3 T ->
  In (CLandmark3d obs i j W u) cs -> In (CLandmark3d obs' i k W' u') cs -> In (CLandmark3d obs'' i l W'' u'') cs -> positive 3 W -> positive 3 W' -> positive 3 W'' ->
  located cs st j -> located cs st k -> located cs st l -> st j = L3 a -> st k = L3 b -> st l = L3 c -> ~ collinear a b c -> located cs st i.
Proof.
  intros cs st i T j k l obs obs' obs'' W W' W'' u u' u'' a b c Si I I' I'' P P' P'' Lj Lk Ll Sj Sk Sl N.
  apply (located_3d cs st [CLandmark3d obs i j W u; CLandmark3d obs' i k W' u'; CLandmark3d obs'' i l W'' u''] i T Si).
  - intros q [<-|[<-|[<-|[]]]]; split; auto; unfold certain, call_factor; cbn [pycall_op]; [destruct (i <? j)%nat|destruct (i <? k)%nat|destruct (i <? l)%nat]; auto.
  - intros q n [<-|[<-|[<-|[]]]] O; injection O as <-; auto.
  - intros om v Un. pose proof (Un _ (or_introl eq_refl) eq_refl) as U1. pose proof (Un _ (or_intror (or_introl eq_refl)) eq_refl) as U2. pose proof (Un _ (or_intror (or_intror (or_introl eq_refl))) eq_refl) as U3.
    rewrite Sj in U1. rewrite Sk in U2. rewrite Sl in U3. exact (three_points om v a b c U1 U2 U3 N).
Qed.
Print Assumptions C91_landmarks.
Theorem C91_planes : forall cs st i T j k l obs obs' obs'' W W' W'' a b c, st i = P3 T ->
  In (CPlane4d obs i j W) cs -> In (CPlane4d obs' i k W') cs -> In (CPlane4d obs'' i l W'') cs -> positive 4 W -> positive 4 W' -> positive 4 W'' ->
  located cs st j -> located cs st k -> located cs st l -> st j = PL a -> st k = PL b -> st l = PL c -> independent (v4h a) (v4h b) (v4h c) -> located cs st i.
Proof.
  intros cs st i T j k l obs obs' obs'' W W' W'' a b c Si I I' I'' P P' P'' Lj Lk Ll Sj Sk Sl N.
  apply (located_3d cs st [CPlane4d obs i j W; CPlane4d obs' i k W'; CPlane4d obs'' i l W''] i T Si).
  - intros q [<-|[<-|[<-|[]]]]; split; auto; unfold certain, call_factor; cbn [pycall_op]; [destruct (i <? j)%nat|destruct (i <? k)%nat|destruct (i <? l)%nat]; auto.
  - intros q n [<-|[<-|[<-|[]]]] O; injection O as <-; auto.
  - intros om v Un. pose proof (Un _ (or_introl eq_refl) eq_refl) as U1. pose proof (Un _ (or_intror (or_introl eq_refl)) eq_refl) as U2. pose proof (Un _ (or_intror (or_intror (or_introl eq_refl))) eq_refl) as U3.
    rewrite Sj in U1. rewrite Sk in U2. rewrite Sl in U3. exact (three_planes om v _ _ _ U1 U2 U3 N).
Qed.
Print Assumptions C91_planes.
Theorem C91_mixed : forall cs st i T j k l obs obs' obs'' W W' W'' u a b c, st i = P3 T ->
  In (CLandmark3d obs i j W u) cs -> In (CPlane4d obs' i k W') cs -> In (CPlane4d obs'' i l W'') cs -> positive 3 W -> positive 4 W' -> positive 4 W'' ->
  located cs st j -> located cs st k -> located cs st l -> st j = L3 a -> st k = PL b -> st l = PL c -> v3cross (v4h b) (v4h c) <> v3zero -> located cs st i.
Proof.
  intros cs st i T j k l obs obs' obs'' W W' W'' u a b c Si I I' I'' P P' P'' Lj Lk Ll Sj Sk Sl N.
  apply (located_3d cs st [CLandmark3d obs i j W u; CPlane4d obs' i k W'; CPlane4d obs'' i l W''] i T Si).
  - intros q [<-|[<-|[<-|[]]]]; split; auto; unfold certain, call_factor; cbn [pycall_op]; [destruct (i <? j)%nat|destruct (i <? k)%nat|destruct (i <? l)%nat]; auto.
  - intros q n [<-|[<-|[<-|[]]]] O; injection O as <-; auto.
  - intros om v Un. pose proof (Un _ (or_introl eq_refl) eq_refl) as U1. pose proof (Un _ (or_intror (or_introl eq_refl)) eq_refl) as U2. pose proof (Un _ (or_intror (or_intror (or_introl eq_refl))) eq_refl) as U3.
    rewrite Sj in U1. rewrite Sk in U2. rewrite Sl in U3. exact (point_planes om v _ _ _ U1 U2 U3 N).
Qed.
Print Assumptions C91_mixed.

(** *** Landmarks on one line, and planes along one direction, do not suffice *)
Theorem C91_line : forall lin rob cs i x s q d, typed [] cs -> Forall solid_call cs -> nth_error (nodes_of cs) i = Some (STANDARD, x) -> kind_of x = KP3 -> d <> v3zero ->
  pycalls lin rob (solver_new world_new) cs = Some s ->
  (forall c cl ids W, In c cs -> call_factor c = Some (cl, ids, W) -> In i ids -> exists obs j W' u t, c = CLandmark3d obs i j W' u /\ state_of (s_w s) j = L3 (v3add q (v3scal t d))) ->
  exists b, build_problem false s = Some b /\ ~ nonsingular (g_stateDim (w_graph (s_w s))) (s_L b).
Proof.
  intros lin rob cs i x s q d T So Hn Kx Nd E On. destruct (session_inv lin rob cs T) as (s0 & E0 & V & Fi). rewrite E in E0. injection E0 as <-. specialize (Fi So). destruct (build_wf s (gd_wf _ (iv_good _ _ _ V))) as (b & Eb & _).
  assert (Q : build_problem false s = Some (build_info_adjacency b)) by (unfold build_problem; rewrite Eb; reflexivity).
  exists (build_info_adjacency b). split; auto. apply (ambiguous_singular rob cs s _ false i x d (v3opp (v3cross d q)) T V Fi Hn Kx); auto.
  - intros c cl ids W Ic Fc Ii. destruct (On c cl ids W Ic Fc Ii) as (obs & j & W' & u & t & -> & _). reflexivity.
  - intros c Ic. assert (X : forall cl ids W, call_factor c = Some (cl, ids, W) -> In i ids -> exists obs j W' u t, c = CLandmark3d obs i j W' u /\ state_of (s_w s) j = L3 (v3add q (v3scal t d))) by (intros cl ids W Fc Ii; exact (On c cl ids W Ic Fc Ii)).
    unfold call_factor in X. destruct c as [ | | | | | |obs p j W' u'| |obs p j W'|zx zy n p W'| | ]; auto; intros ->; cbn [pycall_op] in X.
    + destruct (i <? j)%nat; (destruct (X _ _ _ eq_refl ltac:(cbn; auto)) as (o & j' & W2 & u2 & t & Ej & Sj); injection Ej as _ <- _ _; rewrite Sj; cbn [point_of]; unfold keeps_point; destruct d, q; unfold v3add, v3opp, v3cross, v3scal, v3zero; cbn; f_equal; ring).
    + exfalso. destruct (i <? j)%nat; (destruct (X _ _ _ eq_refl ltac:(cbn; auto)) as (o & j' & W2 & u2 & t & Ej & _); discriminate).
    + exfalso. destruct (X _ _ _ eq_refl ltac:(cbn; auto)) as (o & j' & W2 & u2 & t & Ej & _). discriminate.
Qed.
Print Assumptions C91_line.
Theorem C91_corridor : forall lin rob cs i x s d, typed [] cs -> Forall solid_call cs -> nth_error (nodes_of cs) i = Some (STANDARD, x) -> kind_of x = KP3 -> d <> v3zero ->
  pycalls lin rob (solver_new world_new) cs = Some s ->
  (forall c cl ids W, In c cs -> call_factor c = Some (cl, ids, W) -> In i ids ->
     (exists obs j W' p, c = CPlane4d obs i j W' /\ state_of (s_w s) j = PL p /\ v3dot (v4h p) d = 0) \/ (exists zx zy n W', c = CPoint2Plane zx zy n i W' /\ v3dot n d = 0)) ->
  exists b, build_problem false s = Some b /\ ~ nonsingular (g_stateDim (w_graph (s_w s))) (s_L b).
Proof.
  intros lin rob cs i x s d T So Hn Kx Nd E On. destruct (session_inv lin rob cs T) as (s0 & E0 & V & Fi). rewrite E in E0. injection E0 as <-. specialize (Fi So). destruct (build_wf s (gd_wf _ (iv_good _ _ _ V))) as (b & Eb & _).
  assert (Q : build_problem false s = Some (build_info_adjacency b)) by (unfold build_problem; rewrite Eb; reflexivity).
  exists (build_info_adjacency b). split; auto. apply (ambiguous_singular rob cs s _ false i x v3zero d T V Fi Hn Kx); auto.
  - intros c cl ids W Ic Fc Ii. destruct (On c cl ids W Ic Fc Ii) as [(obs & j & W' & p & -> & _)|(zx & zy & n & W' & -> & _)]; reflexivity.
  - intros c Ic. pose proof (fun cl ids W => On c cl ids W Ic) as X.
    unfold call_factor in X. destruct c as [ | | | | | |obs p j W' u'| |obs p j W'|zx zy n p W'| | ]; auto; intros ->; cbn [pycall_op] in X.
    + exfalso. destruct (i <? j)%nat; (destruct (X _ _ _ eq_refl ltac:(cbn; auto)) as [(? & ? & ? & ? & Ej & _)|(? & ? & ? & ? & Ej & _)]; discriminate).
    + destruct (i <? j)%nat; (destruct (X _ _ _ eq_refl ltac:(cbn; auto)) as [(o & j' & W2 & p & Ej & Sj & Z)|(? & ? & ? & ? & Ej & _)]; [|discriminate]; injection Ej as _ <- _; rewrite Sj; cbn [normal_of]; split; auto; destruct (v4h p); unfold v3cross, v3zero; cbn; f_equal; ring).
    + destruct (X _ _ _ eq_refl ltac:(cbn; auto)) as [(? & ? & ? & ? & Ej & _)|(zx' & zy' & n' & W2 & Ej & Z)]; [discriminate|]. injection Ej as _ _ <- _. unfold slides.
      replace (v3add _ d) with d by (destruct d; unfold v3add, v3cross, v3zero; cbn; f_equal; ring). exact Z.
Qed.
Print Assumptions C91_corridor.

(** *** With exact observations of three landmarks not on a line, only one pose has zero
    residuals; and of two different planar landmarks, only one planar pose *)
Theorem C91_unique_3d : forall st st' i j k l obs obs' obs'' W W' W'' u u' u'' T T' a b c, i <> j -> i <> k -> i <> l -> st i = P3 T -> st' i = P3 T' -> rigid T -> rigid T' ->
  st j = L3 a -> st' j = L3 a -> st k = L3 b -> st' k = L3 b -> st l = L3 c -> st' l = L3 c -> ~ collinear a b c ->
  (forall z, z = st \/ z = st' -> residual_zero (CLandmark3d obs i j W u) z /\ residual_zero (CLandmark3d obs' i k W' u') z /\ residual_zero (CLandmark3d obs'' i l W'' u'') z) -> T = T'.
Proof.
  intros st st' i j k l obs obs' obs'' W W' W'' u u' u'' T T' a b c Nj Nk Nl Si Si' HT HT' Sj Sj' Sk Sk' Sl Sl' N Z.
  destruct (Z st (or_introl eq_refl)) as (A & B & C). destruct (Z st' (or_intror eq_refl)) as (A' & B' & C').
  apply (C46_residual obs i j W u st T a) in A; auto. apply (C46_residual obs' i k W' u' st T b) in B; auto. apply (C46_residual obs'' i l W'' u'' st T c) in C; auto.
  apply (C46_residual obs i j W u st' T' a) in A'; auto. apply (C46_residual obs' i k W' u' st' T' b) in B'; auto. apply (C46_residual obs'' i l W'' u'' st' T' c) in C'; auto.
  destruct (same_place (mR T) (mR T') (mt T) (mt T') obs obs' obs'') as [E1 E2]; try congruence; try apply HT; try apply HT'.
  - intros Co. apply N. unfold collinear in *. transitivity (m3app (mR T) (v3cross (v3sub obs' obs) (v3sub obs'' obs))).
    + rewrite cross_rot by apply HT. rewrite A, B, C. f_equal; lina.
    + rewrite Co. unfold m3app, v3zero. cbn. f_equal; ring.
  - destruct HT as (_ & Hb & Hc), HT' as (_ & Hb' & Hc'), T, T'. cbn in *. congruence.
Qed.
Print Assumptions C91_unique_3d.
Theorem C91_unique_2d : forall st st' i j k r r' be be' W W' u u' p p' a b c d, i <> j -> i <> k -> st i = P2 p -> st' i = P2 p' -> 0 <= r -> 0 <= r' ->
  st j = L2 a b -> st' j = L2 a b -> st k = L2 c d -> st' k = L2 c d -> (a, b) <> (c, d) -> (forall z, z = p \/ z = p' -> ~ nearby z a b /\ ~ nearby z c d) ->
  (forall z, z = st \/ z = st' -> residual_zero (CLandmark2d r be i j W u) z /\ residual_zero (CLandmark2d r' be' i k W' u') z) -> vx p = vx p' /\ vy p = vy p' /\ same_heading (vz p) (vz p').
Proof.
  intros st st' i j k r r' be be' W W' u u' p p' a b c d Nj Nk Si Si' Pr Pr' Sj Sj' Sk Sk' N F Z. destruct (F p (or_introl eq_refl)) as [F1 F2]. destruct (F p' (or_intror eq_refl)) as [F1' F2']. unfold nearby in *. apply Rnot_lt_le in F1, F2, F1', F2'.
  destruct (Z st (or_introl eq_refl)) as (A & B). destruct (Z st' (or_intror eq_refl)) as (A' & B').
  apply (C45_residual r be i j W u st p a b) in A; auto. apply (C45_residual r' be' i k W' u' st p c d) in B; auto. apply (C45_residual r be i j W u st' p' a b) in A'; auto. apply (C45_residual r' be' i k W' u' st' p' c d) in B'; auto.
  apply (same_place2 (vx p) (vy p) (vz p) (vx p') (vy p') (vz p') r be r' be'); try (destruct A, B, A', B'; congruence).
Qed.
Print Assumptions C91_unique_2d.

(** *** Examples *)
(** three known landmarks and a pose that sees them; two known planar landmarks and a
    planar pose that sees them; and poses that hang on these *)
Definition known_calls : list pycall :=
  [CNode ANCHOR (L3 (mkV3 0 0 0)); CNode ANCHOR (L3 (mkV3 1 0 0)); CNode ANCHOR (L3 (mkV3 0 1 0)); CNode STANDARD (P3 m4id);
   CLandmark3d (mkV3 0 0 0) 3 0 id3 false; CLandmark3d (mkV3 1 0 0) 3 1 id3 false; CLandmark3d (mkV3 0 1 0) 3 2 id3 false].
Definition room_calls : list pycall := known_calls ++
  [CNode STANDARD (P3 m4id); C2Poses3d m4id 4 3 id3 false; CNode ANCHOR (L2 1 0); CNode ANCHOR (L2 0 2); CNode STANDARD (P2 (mkV3 0 0 0)); CLandmark2d 1 0 7 5 id3 false; CLandmark2d 2 1 7 6 id3 false].
Lemma room_run lin rob : exists s, pycalls lin rob (solver_new world_new) room_calls = Some s /\ state_of (s_w s) 0 = L3 (mkV3 0 0 0) /\ state_of (s_w s) 1 = L3 (mkV3 1 0 0) /\ state_of (s_w s) 2 = L3 (mkV3 0 1 0) /\
  state_of (s_w s) 3 = P3 m4id /\ state_of (s_w s) 5 = L2 1 0 /\ state_of (s_w s) 6 = L2 0 2 /\ state_of (s_w s) 7 = P2 (mkV3 0 0 0).
Proof. eexists. split; [cbv -[res_landmark3d jac_landmark3d res_landmark2d jac_landmark2d res_2poses3d jac_2poses3d id3 lvec l3 l6 lmat beside IZR m4id R0 R1]; reflexivity|]. repeat split; reflexivity. Qed.
(** the [n]-th call of a session *)
Ltac at_ n := apply (nth_error_In _ n); reflexivity.
Lemma not_in_line : ~ collinear (mkV3 0 0 0) (mkV3 1 0 0) (mkV3 0 1 0).
Proof. unfold collinear, v3cross, v3sub, v3zero. cbn. intros E. injection E. lra. Qed.
Example C91_ex_located : forall lin rob, exists s, typed [] room_calls /\ Forall solid_call room_calls /\ Forall call_info room_calls /\ pycalls lin rob (solver_new world_new) room_calls = Some s /\
  forall i, (i < length (nodes_of room_calls))%nat -> located room_calls (state_of (s_w s)) i.
Proof.
  intros lin rob. destruct (room_run lin rob) as (s & E & S0 & S1 & S2 & S3 & S5 & S6 & S7). exists s. pose proof id_positive as Po. split. { cbn. repeat split; auto; discriminate. }
  split. { unfold room_calls, known_calls. cbn [app]. repeat (apply Forall_cons; [cbn; first [exact I | exact solid_id]|]). constructor. }
  split. { unfold room_calls, known_calls. cbn [app]. repeat (apply Forall_cons; [cbn; first [exact I | exact (id3_proper 3) | exact (id3_proper 2) | exact (id3_proper 6)]|]). constructor. }
  split; [exact E|].
  assert (A : forall i v, nth_error (nodes_of room_calls) i = Some (ANCHOR, v) -> located room_calls (state_of (s_w s)) i) by (intros i v H; apply located_held; eapply held_anchor; exact H).
  assert (L3' : located room_calls (state_of (s_w s)) 3).
  { assert (I0 : In (CLandmark3d (mkV3 0 0 0) 3 0 id3 false) room_calls) by at_ 4%nat. assert (I1 : In (CLandmark3d (mkV3 1 0 0) 3 1 id3 false) room_calls) by at_ 5%nat. assert (I2 : In (CLandmark3d (mkV3 0 1 0) 3 2 id3 false) room_calls) by at_ 6%nat.
    exact (C91_landmarks _ _ _ _ _ _ _ _ _ _ _ _ _ _ _ _ _ _ _ S3 I0 I1 I2 (Po 3%nat) (Po 3%nat) (Po 3%nat) (A 0%nat _ eq_refl) (A 1%nat _ eq_refl) (A 2%nat _ eq_refl) S0 S1 S2 not_in_line). }
  assert (L4 : located room_calls (state_of (s_w s)) 4). { eapply located_hangs; [|exact L3']. eapply hangs_2poses3d'; [|apply (Po 6%nat)]. at_ 8%nat. }
  assert (L7 : located room_calls (state_of (s_w s)) 7).
  { assert (I0 : In (CLandmark2d 1 0 7 5 id3 false) room_calls) by at_ 12%nat. assert (I1 : In (CLandmark2d 2 1 7 6 id3 false) room_calls) by at_ 13%nat.
    refine (located_2d _ _ _ _ _ _ _ _ _ _ _ _ _ _ _ _ _ _ I0 (Po 2%nat) (A 5%nat _ eq_refl) I1 (Po 2%nat) (A 6%nat _ eq_refl) S7 S5 S6 _ _).
    - intros H. injection H. lra. - unfold nearby. cbn. lra. }
  intros i Hi. cbn in Hi. destruct i as [|[|[|[|[|[|[|[|i]]]]]]]]; auto; try lia; eapply A; reflexivity.
Qed.
Example C91_ex_localise : forall lin rob, exists s, typed [] known_calls /\ Forall solid_call known_calls /\ Forall call_info known_calls /\ Forall certain known_calls /\
  nth_error (nodes_of known_calls) 3 = Some (STANDARD, P3 m4id) /\ only_observes known_calls 3 /\ (forall j, (j < length (nodes_of known_calls))%nat -> j <> 3%nat -> held known_calls j) /\
  pycalls lin rob (solver_new world_new) known_calls = Some s.
Proof.
  intros lin rob. assert (T : typed [] known_calls) by (cbn; repeat split; auto; discriminate). destruct (session_inv lin rob known_calls T) as (s & E & _). exists s. split; auto.
  split. { unfold known_calls. repeat (apply Forall_cons; [cbn; first [exact I | exact solid_id]|]). constructor. }
  split. { unfold known_calls. repeat (apply Forall_cons; [cbn; first [exact I | exact (id3_proper 3)]|]). constructor. }
  split. { unfold known_calls. repeat (apply Forall_cons; [unfold certain; cbn; first [exact I | exact (id_positive 3)]|]). constructor. }
  split; [reflexivity|]. split. { intros c cl ids W Ic Fc Ii. destruct Ic as [<-|[<-|[<-|[<-|[<-|[<-|[<-|[]]]]]]]]; first [reflexivity | discriminate Fc]. }
  split; [|exact E]. intros j Hj Nj. cbn in Hj. destruct j as [|[|[|[|j]]]]; try lia; eapply held_anchor; reflexivity.
Qed.
(** three planes, and a landmark with two planes *)
Definition walls_calls : list pycall :=
  [CNode ANCHOR (PL (mkV4 (mkV3 1 0 0) 1)); CNode ANCHOR (PL (mkV4 (mkV3 0 1 0) 1)); CNode ANCHOR (PL (mkV4 (mkV3 0 0 1) 1)); CNode STANDARD (P3 m4id); CNode STANDARD (P3 m4id); CNode ANCHOR (L3 (mkV3 1 1 1));
   CPlane4d (mkV4 (mkV3 1 0 0) 1) 3 0 id3; CPlane4d (mkV4 (mkV3 0 1 0) 1) 3 1 id3; CPlane4d (mkV4 (mkV3 0 0 1) 1) 3 2 id3;
   CPlane4d (mkV4 (mkV3 1 0 0) 1) 4 0 id3; CPlane4d (mkV4 (mkV3 0 1 0) 1) 4 1 id3; CLandmark3d (mkV3 1 1 1) 4 5 id3 false].
Definition walls_states (i : nat) : nval :=
  nth i [PL (mkV4 (mkV3 1 0 0) 1); PL (mkV4 (mkV3 0 1 0) 1); PL (mkV4 (mkV3 0 0 1) 1); P3 m4id; P3 m4id; L3 (mkV3 1 1 1)] (P2 v3zero).
Example C91_ex_walls : located walls_calls walls_states 3 /\ located walls_calls walls_states 4.
Proof.
  pose proof (id_positive 4) as P4. pose proof (id_positive 3) as P3'.
  assert (A : forall i v, nth_error (nodes_of walls_calls) i = Some (ANCHOR, v) -> located walls_calls walls_states i) by (intros i v H; apply located_held; eapply held_anchor; exact H).
  split.
  - assert (I0 : In (CPlane4d (mkV4 (mkV3 1 0 0) 1) 3 0 id3) walls_calls) by at_ 6%nat. assert (I1 : In (CPlane4d (mkV4 (mkV3 0 1 0) 1) 3 1 id3) walls_calls) by at_ 7%nat. assert (I2 : In (CPlane4d (mkV4 (mkV3 0 0 1) 1) 3 2 id3) walls_calls) by at_ 8%nat.
    refine (C91_planes _ _ _ m4id _ _ _ _ _ _ _ _ _ _ _ _ eq_refl I0 I1 I2 P4 P4 P4 (A 0%nat _ eq_refl) (A 1%nat _ eq_refl) (A 2%nat _ eq_refl) eq_refl eq_refl eq_refl _). unfold independent, v3dot, v3cross. cbn. lra.
  - assert (I0 : In (CLandmark3d (mkV3 1 1 1) 4 5 id3 false) walls_calls) by at_ 11%nat. assert (I1 : In (CPlane4d (mkV4 (mkV3 1 0 0) 1) 4 0 id3) walls_calls) by at_ 9%nat. assert (I2 : In (CPlane4d (mkV4 (mkV3 0 1 0) 1) 4 1 id3) walls_calls) by at_ 10%nat.
    refine (C91_mixed _ _ _ m4id _ _ _ _ _ _ _ _ _ _ _ _ _ eq_refl I0 I1 I2 P3' P4 P4 (A 5%nat _ eq_refl) (A 0%nat _ eq_refl) (A 1%nat _ eq_refl) eq_refl eq_refl eq_refl _). unfold v3cross, v3zero. cbn. intros H. injection H. lra.
Qed.
(** two landmarks are always on a line *)
Definition pair_calls : list pycall :=
  [CNode ANCHOR (L3 (mkV3 0 0 0)); CNode ANCHOR (L3 (mkV3 1 0 0)); CNode STANDARD (P3 m4id); CLandmark3d (mkV3 0 0 0) 2 0 id3 false; CLandmark3d (mkV3 1 0 0) 2 1 id3 false].
Example C91_ex_line : forall lin rob, exists s, typed [] pair_calls /\ Forall solid_call pair_calls /\ nth_error (nodes_of pair_calls) 2 = Some (STANDARD, P3 m4id) /\ pycalls lin rob (solver_new world_new) pair_calls = Some s /\
  forall c cl ids W, In c pair_calls -> call_factor c = Some (cl, ids, W) -> In 2%nat ids -> exists obs j W' u t, c = CLandmark3d obs 2 j W' u /\ state_of (s_w s) j = L3 (v3add v3zero (v3scal t (mkV3 1 0 0))).
Proof.
  intros lin rob. assert (Run : exists s, pycalls lin rob (solver_new world_new) pair_calls = Some s /\ state_of (s_w s) 0 = L3 (mkV3 0 0 0) /\ state_of (s_w s) 1 = L3 (mkV3 1 0 0)).
  { eexists. split; [cbv -[res_landmark3d jac_landmark3d id3 lvec l3 lmat beside IZR m4id R0 R1]; reflexivity|]. split; reflexivity. }
  destruct Run as (s & E & S0 & S1). exists s. split. { cbn. repeat split; auto; discriminate. }
  split. { unfold pair_calls. repeat (apply Forall_cons; [cbn; first [exact I | exact solid_id]|]). constructor. }
  split; [reflexivity|]. split; [exact E|]. intros c cl ids W Ic Fc Ii. destruct Ic as [<-|[<-|[<-|[<-|[<-|[]]]]]]; [discriminate Fc|discriminate Fc|discriminate Fc| |].
  - do 4 eexists. exists 0. split; [reflexivity|]. rewrite S0. f_equal. unfold v3add, v3scal, v3zero. cbn. f_equal; ring.
  - do 4 eexists. exists 1. split; [reflexivity|]. rewrite S1. f_equal. unfold v3add, v3scal, v3zero. cbn. f_equal; ring.
Qed.
(** two walls and the floor of a corridor along the first axis *)
Definition corridor_calls : list pycall :=
  [CNode ANCHOR (PL (mkV4 (mkV3 0 1 0) 1)); CNode ANCHOR (PL (mkV4 (mkV3 0 0 1) 1)); CNode STANDARD (P3 m4id); CPlane4d (mkV4 (mkV3 0 1 0) 1) 2 0 id3; CPlane4d (mkV4 (mkV3 0 0 1) 1) 2 1 id3; CPoint2Plane (mkV3 1 2 3) (mkV3 1 2 3) (mkV3 0 1 0) 2 id3].
Example C91_ex_corridor : forall lin rob, exists s, typed [] corridor_calls /\ Forall solid_call corridor_calls /\ nth_error (nodes_of corridor_calls) 2 = Some (STANDARD, P3 m4id) /\ pycalls lin rob (solver_new world_new) corridor_calls = Some s /\
  forall c cl ids W, In c corridor_calls -> call_factor c = Some (cl, ids, W) -> In 2%nat ids ->
     (exists obs j W' p, c = CPlane4d obs 2 j W' /\ state_of (s_w s) j = PL p /\ v3dot (v4h p) (mkV3 1 0 0) = 0) \/ (exists zx zy n W', c = CPoint2Plane zx zy n 2 W' /\ v3dot n (mkV3 1 0 0) = 0).
Proof.
  intros lin rob. assert (Run : exists s, pycalls lin rob (solver_new world_new) corridor_calls = Some s /\ state_of (s_w s) 0 = PL (plane_normalize (mkV4 (mkV3 0 1 0) 1)) /\ state_of (s_w s) 1 = PL (plane_normalize (mkV4 (mkV3 0 0 1) 1))).
  { eexists. split; [cbv -[res_plane4d jac_plane4d res_point2plane jac_point2plane plane_normalize id3 lvec l3 l4 lmat beside IZR m4id R0 R1]; reflexivity|]. split; reflexivity. }
  destruct Run as (s & E & S0 & S1). exists s. split. { cbn. repeat split; auto; discriminate. }
  split. { unfold corridor_calls. repeat (apply Forall_cons; [cbn; first [exact I | exact solid_id]|]). constructor. }
  split; [reflexivity|]. split; [exact E|]. intros c cl ids W Ic Fc Ii. destruct Ic as [<-|[<-|[<-|[<-|[<-|[<-|[]]]]]]]; [discriminate Fc|discriminate Fc|discriminate Fc| | |].
  - left. do 4 eexists. split; [reflexivity|]. split; [exact S0|]. cbn [plane_normalize v4h]. unfold v3normalize. destruct (Rltb _ _); unfold v3dot, v3scal; cbn; ring.
  - left. do 4 eexists. split; [reflexivity|]. split; [exact S1|]. cbn [plane_normalize v4h]. unfold v3normalize. destruct (Rltb _ _); unfold v3dot, v3scal; cbn; ring.
  - right. do 4 eexists. split; [reflexivity|]. unfold v3dot. cbn. ring.
Qed.
Definition room_states (i : nat) : nval :=
  nth i [L3 (mkV3 0 0 0); L3 (mkV3 1 0 0); L3 (mkV3 0 1 0); P3 (se3_of_Rt m3id (mkV3 1 2 3)); P3 m4id; L2 1 0; L2 0 2; P2 (mkV3 0 0 0)] (P2 v3zero).
Example C91_ex_unique : (exists T, room_states 3 = P3 T /\ rigid T /\ residual_zero (CLandmark3d (mkV3 (-1) (-2) (-3)) 3 0 id3 false) room_states /\
    residual_zero (CLandmark3d (mkV3 0 (-2) (-3)) 3 1 id3 false) room_states /\ residual_zero (CLandmark3d (mkV3 (-1) (-1) (-3)) 3 2 id3 false) room_states) /\
  residual_zero (CLandmark2d 1 0 7 5 id3 false) room_states /\ residual_zero (CLandmark2d 2 (PI / 2) 7 6 id3 false) room_states /\ ~ nearby (mkV3 0 0 0) 1 0 /\ ~ nearby (mkV3 0 0 0) 0 2.
Proof.
  split; [|split; [|split; [|split]]].
  - exists (se3_of_Rt m3id (mkV3 1 2 3)). assert (HT : rigid (se3_of_Rt m3id (mkV3 1 2 3))). { split; [|split; reflexivity]. exact rotation_id. }
    split; [reflexivity|]. split; auto. split; [|split].
    + apply (C46_residual _ 3 0 _ _ room_states _ (mkV3 0 0 0) ltac:(lia) eq_refl eq_refl HT). unfold v3add, m3app. cbn. f_equal; ring.
    + apply (C46_residual _ 3 1 _ _ room_states _ (mkV3 1 0 0) ltac:(lia) eq_refl eq_refl HT). unfold v3add, m3app. cbn. f_equal; ring.
    + apply (C46_residual _ 3 2 _ _ room_states _ (mkV3 0 1 0) ltac:(lia) eq_refl eq_refl HT). unfold v3add, m3app. cbn. f_equal; ring.
  - apply (C45_residual 1 0 7 5 id3 false room_states (mkV3 0 0 0) 1 0 ltac:(lia) eq_refl eq_refl ltac:(lra)); [cbn; lra|]. cbn. rewrite Rplus_0_r, cos_0, sin_0. lra.
  - apply (C45_residual 2 (PI / 2) 7 6 id3 false room_states (mkV3 0 0 0) 0 2 ltac:(lia) eq_refl eq_refl ltac:(lra)); [cbn; lra|]. cbn [vx vy vz]. replace (0 + PI / 2) with (PI / 2) by ring. rewrite cos_PI2, sin_PI2. lra.
  - unfold nearby. cbn. lra.
  - unfold nearby. cbn. lra.
Qed.
