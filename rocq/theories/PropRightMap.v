(** C92: when a chi2 of zero means that the map is right. *)
Require Import Reals List Arith Lia Lra Bool.
From Verif Require Import Lin LinFacts SpecGeom SO3 SE3 SO3Exp SO3Ln SO3Misc SE3Alg SE3Exp SE3Ln Angle AngleProofs TrigBounds Nodes NodesProofs Robust Graph Sums Solve SpecSolve SolveFrame SolveBuild SolveProofs Session SessionProofs.
From Verif Require Import Factors SpecFactors FactorsDer FactorsPlanar Factors3D Factors3DLn FactorsMore FactorsSession SpecFrame SpecSolvable SolvableFactors SolvableSession MappingSession PropSolve PropFrame PropSolvable PropFactors SpecFixed SpecRobustCost RobustCost SpecLMStops SpecLocate Locate PropLocate SpecRightMap RightMap.
Import ListNotations.
Local Open Scope R_scope.

Lemma consistent_chi2 cs st : consistent cs st -> lsum cs (call_chi2 st) = 0.
Proof.
  intros C. apply lsum_zero. intros c I. unfold call_chi2. specialize (C c I). unfold residual_zero, zero_residual in C.
  destruct (call_factor c) as [[[cl ids] W]|]; auto. specialize (C ltac:(discriminate)). unfold quad. rewrite sumn_zero; [ring|]. intros i Hi. apply sumn_zero. intros j Hj. rewrite (C i Hi). ring.
Qed.
(** *** Measurements without noise and a chi2 of zero: every pinned node is where it
    truly is *)
Theorem C92_right : forall lin rob cs s truth, typed [] cs -> Forall call_info cs -> Forall sound cs -> pycalls lin rob (solver_new world_new) cs = Some s ->
  rearranged cs (state_of (s_w s)) truth -> consistent cs truth -> rigid_states truth -> rigid_states (state_of (s_w s)) -> Forall (clear_view truth) cs -> Forall (clear_view (state_of (s_w s))) cs ->
  chi2_of (s_w s) = 0 -> forall i, pinned cs truth i -> alike (state_of (s_w s) i) (truth i).
Proof.
  intros lin rob cs s truth T P So E Re C Rt Rs Vt Vs Z. destruct (session_inv lin rob cs T) as (s0 & E0 & V & _). rewrite E in E0. injection E0 as <-. rewrite (tracks_chi2 _ cs _ (iv_tracks _ _ _ V)) in Z.
  apply pin; auto.
  - intros i k Hi. destruct (state_kind rob cs _ i k V Hi) as (_ & _ & K & _). rewrite kinds_nodes in Hi. cbn [app] in Hi. rewrite nth_error_map in Hi. destruct (nth_error (nodes_of cs) i) as [[m v]|] eqn:G; [|discriminate]. destruct (Re i m v G) as [K' _]. split; [congruence|exact K].
  - intros c I Ce N. split; [apply C; auto|apply (certain_zero cs); auto].
  - intros i v G. destruct (Re i _ _ G) as [_ A]. symmetry. apply A. reflexivity.
Qed.
Print Assumptions C92_right.
(** *** In particular where no other arrangement has a lower chi2 *)
Theorem C92_optimum : forall lin rob cs s truth, typed [] cs -> Forall call_info cs -> Forall sound cs -> pycalls lin rob (solver_new world_new) cs = Some s ->
  rearranged cs (state_of (s_w s)) truth -> consistent cs truth -> rigid_states truth -> rigid_states (state_of (s_w s)) -> Forall (clear_view truth) cs -> Forall (clear_view (state_of (s_w s))) cs ->
  least_squares cs (state_of (s_w s)) -> chi2_of (s_w s) = 0 /\ forall i, pinned cs truth i -> alike (state_of (s_w s) i) (truth i).
Proof.
  intros lin rob cs s truth T P So E Re C Rt Rs Vt Vs L. destruct (session_inv lin rob cs T) as (s0 & E0 & V & _). rewrite E in E0. injection E0 as <-.
  assert (Z : chi2_of (s_w s) = 0).
  { rewrite (tracks_chi2 _ cs _ (iv_tracks _ _ _ V)). apply Rle_antisym; [rewrite <- (consistent_chi2 cs truth C); apply L, Re|]. apply lsum_nonneg. intros c I. rewrite Forall_forall in P. apply chi2_nonneg, P, I. }
  split; auto. apply (C92_right lin rob cs s truth); auto.
Qed.
Print Assumptions C92_optimum.

(** *** Known planes determine the pose only on their positive sides *)
Theorem C92_planes : forall st st' i j k l obs obs' obs'' W W' W'' T T' a b c, i <> j -> i <> k -> i <> l -> st i = P3 T -> st' i = P3 T' -> rigid T -> rigid T' ->
  st j = PL a -> st' j = PL a -> st k = PL b -> st' k = PL b -> st l = PL c -> st' l = PL c -> independent (v4h a) (v4h b) (v4h c) ->
  (forall z, z = st \/ z = st' -> residual_zero (CPlane4d obs i j W) z /\ residual_zero (CPlane4d obs' i k W') z /\ residual_zero (CPlane4d obs'' i l W'') z) ->
  (forall p M, p = a \/ p = b \/ p = c -> M = T \/ M = T' -> 0 <= v3dot (v4h p) (mt M) + v4l p) -> T = T'.
Proof.
  intros st st' i j k l obs obs' obs'' W W' W'' T T' a b c Nj Nk Nl Si Si' HT HT' Sj Sj' Sk Sk' Sl Sl' N Z Sd.
  destruct (Z st (or_introl eq_refl)) as (A & B & C). destruct (Z st' (or_intror eq_refl)) as (A' & B' & C').
  apply (C47_residual obs i j W st T a) in A; auto. apply (C47_residual obs' i k W' st T b) in B; auto. apply (C47_residual obs'' i l W'' st T c) in C; auto.
  apply (C47_residual obs i j W st' T' a) in A'; auto. apply (C47_residual obs' i k W' st' T' b) in B'; auto. apply (C47_residual obs'' i l W'' st' T' c) in C'; auto. cbv zeta in *.
  assert (Lo : forall M p, rigid M -> m4app (m4tr M) p = mkV4 (m3app (m3tr (mR M)) (v4h p)) (v3dot (v4h p) (mt M) + v4l p)).
  { clear. intros [R t b d] [n e] (_ & Hb & Hd). cbn in Hb, Hd. subst. destruct R, t, n. unfold m4app, m4tr, m3app, m3tr, v3dot, v3add, v3scal, v3zero. cbn. f_equal; [f_equal|]; ring. }
  assert (Eq : forall p, p = a \/ p = b \/ p = c -> forall q, (0 <= v4l (m4app (m4tr T) p) /\ m4app (m4tr T) p = q) \/ (v4l (m4app (m4tr T) p) < 0 /\ m4app (m4tr T) p = v4scal (-1) q) ->
    (0 <= v4l (m4app (m4tr T') p) /\ m4app (m4tr T') p = q) \/ (v4l (m4app (m4tr T') p) < 0 /\ m4app (m4tr T') p = v4scal (-1) q) -> m3app (m3tr (mR T)) (v4h p) = m3app (m3tr (mR T')) (v4h p) /\ v3dot (v4h p) (mt T) = v3dot (v4h p) (mt T')).
  { intros p Hp q X X'. pose proof (Sd p T Hp (or_introl eq_refl)) as S1. pose proof (Sd p T' Hp (or_intror eq_refl)) as S2. rewrite (Lo T p HT) in X. rewrite (Lo T' p HT') in X'. cbn [v4l] in X, X'. destruct X as [[_ X]|[X _]]; [|lra]. destruct X' as [[_ X']|[X' _]]; [|lra]. rewrite <- X' in X. pose proof (f_equal v4h X) as X1. pose proof (f_equal v4l X) as X2. cbn [v4h v4l] in X1, X2. split; [exact X1|lra]. }
  destruct (Eq a (or_introl eq_refl) _ A A') as [Ra Ta]. destruct (Eq b (or_intror (or_introl eq_refl)) _ B B') as [Rb Tb]. destruct (Eq c (or_intror (or_intror eq_refl)) _ C C') as [Rc Tc].
  clear - HT HT' N Ra Rb Rc Ta Tb Tc. rewrite (rigid_form T HT), (rigid_form T' HT'). set (x := v4h a) in *. set (y := v4h b) in *. set (z := v4h c) in *. clearbody x y z. unfold independent in N.
  assert (D : m3det (mkM3 (vx x) (vy x) (vz x) (vx y) (vy y) (vz y) (vx z) (vy z) (vz z)) <> 0) by (replace (m3det _) with (v3dot (v3cross x y) z) by (destruct x, y, z; unfold m3det, v3dot, v3cross; cbn; ring); exact N).
  assert (E2 : mt T = mt T').
  { destruct (mt T) as [t0 t1 t2], (mt T') as [s0 s1 s2]. unfold v3dot in *. cbn in Ta, Tb, Tc. destruct (m3_inj_rows _ (t0 - s0) (t1 - s1) (t2 - s2) D) as (? & ? & ?); [cbn; lra|cbn; lra|cbn; lra|]. f_equal; lra. }
  assert (E1 : mR T = mR T').
  { destruct (mR T) as [r00 r01 r02 r10 r11 r12 r20 r21 r22], (mR T') as [s00 s01 s02 s10 s11 s12 s20 s21 s22]. unfold m3app, m3tr in Ra, Rb, Rc. cbn in Ra, Rb, Rc. injection Ra as X0 X1 X2. injection Rb as Y0 Y1 Y2. injection Rc as Z0 Z1 Z2.
    destruct (m3_inj_rows _ (r00 - s00) (r10 - s10) (r20 - s20) D) as (? & ? & ?); [cbn; lra|cbn; lra|cbn; lra|].
    destruct (m3_inj_rows _ (r01 - s01) (r11 - s11) (r21 - s21) D) as (? & ? & ?); [cbn; lra|cbn; lra|cbn; lra|].
    destruct (m3_inj_rows _ (r02 - s02) (r12 - s12) (r22 - s22) D) as (? & ? & ?); [cbn; lra|cbn; lra|cbn; lra|]. f_equal; lra. }
  rewrite E1, E2. reflexivity.
Qed.
Print Assumptions C92_planes.
(** Behind two of the walls, turned around: the pose sees them as measured, though it
    is located (C91) *)
Definition behind : M4 := se3_of_Rt (mkM3 (-1) 0 0 0 (-1) 0 0 0 1) (mkV3 (-2) (-2) 0).
Definition wall (n : V3) : V4 := mkV4 n 1.
Definition behind_calls : list pycall :=
  [CNode ANCHOR (PL (wall (mkV3 1 0 0))); CNode ANCHOR (PL (wall (mkV3 0 1 0))); CNode ANCHOR (PL (wall (mkV3 0 0 1))); CNode STANDARD (P3 behind);
   CPlane4d (wall (mkV3 1 0 0)) 3 0 id3; CPlane4d (wall (mkV3 0 1 0)) 3 1 id3; CPlane4d (wall (mkV3 0 0 1)) 3 2 id3].
Definition behind_truth (i : nat) : nval := match i with 0%nat => PL (wall (mkV3 1 0 0)) | 1%nat => PL (wall (mkV3 0 1 0)) | 2%nat => PL (wall (mkV3 0 0 1)) | _ => P3 m4id end.
Lemma wall_unit n : v3dot n n = 1 -> plane_normalize (wall n) = wall n.
Proof. intros U. unfold wall, plane_normalize, v3normalize, v3norm. cbn [v4h v4l]. unfold v3sqn. rewrite U, (Rltb_lt 0), sqrt_1 by lra. f_equal. destruct n. unfold v3scal. cbn. f_equal; field. Qed.
Lemma behind_rigid : rigid behind.
Proof. apply rigid_of_Rt. split; [unfold orthogonal; lin_unfold; apply m3_eq; ring|lin_unfold; ring]. Qed.
Lemma wall_seen n j W st M : (j < 3)%nat -> v3dot n n = 1 -> st 3%nat = P3 M -> st j = PL (wall n) -> (m4app (m4tr M) (wall n) = wall n \/ m4app (m4tr M) (wall n) = v4scal (-1) (wall n)) -> residual_zero (CPlane4d (wall n) 3 j W) st.
Proof.
  intros Hj U S3 Sj H. apply (C47_residual (wall n) 3 j W st M (wall n)); auto; [lia|]. cbv zeta. rewrite wall_unit by auto. destruct H as [H|H]; [left|right]; rewrite H; cbn; split; auto; lra.
Qed.
Theorem C92_walls_refuted : exists cs truth, typed [] cs /\ Forall call_info cs /\ Forall sound cs /\ consistent cs truth /\ rigid_states truth /\ located cs truth 3 /\
  forall lin rob, exists s, pycalls lin rob (solver_new world_new) cs = Some s /\ rearranged cs (state_of (s_w s)) truth /\ rigid_states (state_of (s_w s)) /\ chi2_of (s_w s) = 0 /\
  exists A B, state_of (s_w s) 3 = P3 A /\ truth 3%nat = P3 B /\ A <> B.
Proof.
  assert (U1 : v3dot (mkV3 1 0 0) (mkV3 1 0 0) = 1) by (unfold v3dot; cbn; ring). assert (U2 : v3dot (mkV3 0 1 0) (mkV3 0 1 0) = 1) by (unfold v3dot; cbn; ring). assert (U3 : v3dot (mkV3 0 0 1) (mkV3 0 0 1) = 1) by (unfold v3dot; cbn; ring).
  assert (Co : forall st, (forall j, (j < 3)%nat -> st j = behind_truth j) -> st 3%nat = P3 m4id \/ st 3%nat = P3 behind -> consistent behind_calls st).
  { intros st H H3. assert (Q : exists M, st 3%nat = P3 M /\ forall n, n = mkV3 1 0 0 \/ n = mkV3 0 1 0 \/ n = mkV3 0 0 1 -> m4app (m4tr M) (wall n) = wall n \/ m4app (m4tr M) (wall n) = v4scal (-1) (wall n)).
    { destruct H3 as [H3|H3]; eexists; (split; [exact H3|]).
      - intros n _. left. unfold wall, m4id. destruct n. lin.
      - intros n [-> | [-> | ->]]; [right|right|left]; unfold wall, behind, se3_of_Rt, m4app, m4tr, v4scal, m3app, m3tr, v3dot, v3add, v3scal, v3zero; cbn; f_equal; [f_equal| | f_equal| |f_equal|]; ring. }
    destruct Q as (M & S3 & Q). intros c I N. destruct I as [<-|[<-|[<-|[<-|[<-|[<-|[<-|[]]]]]]]]; try (exfalso; apply N; reflexivity).
    - apply (wall_seen _ 0%nat id3 st M); auto. rewrite H by lia. reflexivity.
    - apply (wall_seen _ 1%nat id3 st M); auto. rewrite H by lia. reflexivity.
    - apply (wall_seen _ 2%nat id3 st M); auto. rewrite H by lia. reflexivity. }
  assert (T : typed [] behind_calls) by (cbn; repeat split; auto; discriminate).
  exists behind_calls, behind_truth. split; [exact T|]. split. { unfold behind_calls. repeat (apply Forall_cons; [first [exact I|exact (id3_proper 4)]|]). apply Forall_nil. }
  split. { unfold behind_calls. repeat (apply Forall_cons; [exact I|]). apply Forall_nil. }
  split. { apply Co; [reflexivity|left; reflexivity]. } split. { intros [|[|[|i]]] M E; try discriminate. injection E as <-. apply rigid_id. }
  split. { assert (A : forall i v, nth_error (nodes_of behind_calls) i = Some (ANCHOR, v) -> located behind_calls behind_truth i) by (intros i v H; apply located_held; eapply held_anchor; exact H).
    assert (I0 : In (CPlane4d (wall (mkV3 1 0 0)) 3 0 id3) behind_calls) by at_ 4%nat. assert (I1 : In (CPlane4d (wall (mkV3 0 1 0)) 3 1 id3) behind_calls) by at_ 5%nat. assert (I2 : In (CPlane4d (wall (mkV3 0 0 1)) 3 2 id3) behind_calls) by at_ 6%nat. pose proof (id_positive 4) as P4.
    refine (C91_planes _ _ _ m4id _ _ _ _ _ _ _ _ _ _ _ _ eq_refl I0 I1 I2 P4 P4 P4 (A 0%nat _ eq_refl) (A 1%nat _ eq_refl) (A 2%nat _ eq_refl) eq_refl eq_refl eq_refl _). unfold independent, v3dot, v3cross. cbn. lra. }
  intros lin rob. destruct (session_inv lin rob _ T) as (s & E & V & _).
  assert (B : state_of (s_w s) 3 = P3 behind /\ state_of (s_w s) 0 = PL (plane_normalize (wall (mkV3 1 0 0))) /\ state_of (s_w s) 1 = PL (plane_normalize (wall (mkV3 0 1 0))) /\ state_of (s_w s) 2 = PL (plane_normalize (wall (mkV3 0 0 1))) /\ forall i, state_of (s_w s) (4 + i) = P2 v3zero).
  { clear - E. unfold behind_calls in E. cbv -[wall behind id3 IZR lvec res_plane4d jac_plane4d plane_normalize l4 l3 lmat beside R1 R0] in E. injection E as <-. do 4 (split; [reflexivity|]). intros [|i]; reflexivity. }
  destruct B as (B3 & B0 & B1 & B2 & B4). rewrite wall_unit in B0 by auto. rewrite wall_unit in B1 by auto. rewrite wall_unit in B2 by auto. exists s. split; [exact E|].
  split. { intros [|[|[|[|i]]]] m v G; try (destruct i; discriminate G); injection G as <- <-; rewrite ?B0, ?B1, ?B2, ?B3; (split; [reflexivity|]); auto; discriminate. }
  split. { intros [|[|[|[|i]]]] M Q; [congruence|congruence|congruence| |]. rewrite B3 in Q. injection Q as <-. apply behind_rigid. change (S (S (S (S i)))) with (4 + i)%nat in Q. congruence. }
  split. { rewrite (tracks_chi2 _ behind_calls _ (iv_tracks _ _ _ V)). apply consistent_chi2, Co; [|right; exact B3]. intros [|[|[|j]]] Hj; auto. lia. }
  exists behind, m4id. split; [exact B3|]. split; [reflexivity|]. intros Q. apply (f_equal (fun M => vx (mt M))) in Q. cbn in Q. lra.
Qed.
Print Assumptions C92_walls_refuted.

(** *** Without a clear view: a landmark that is initialised on top of its pose is
    never told apart from a far one *)
Definition blind_calls : list pycall := [CNode ANCHOR (P2 v3zero); CNode STANDARD (L2 0 0); CLandmark2d 100 0 0 1 id3 false].
Definition blind_truth (i : nat) : nval := match i with 0%nat => P2 v3zero | 1%nat => L2 100 0 | _ => P2 v3zero end.
Theorem C92_close_refuted : exists cs truth, typed [] cs /\ Forall call_info cs /\ Forall sound cs /\ consistent cs truth /\ Forall (clear_view truth) cs /\ pinned cs truth 1 /\
  forall lin rob, exists s, pycalls lin rob (solver_new world_new) cs = Some s /\ rearranged cs (state_of (s_w s)) truth /\ chi2_of (s_w s) = 0 /\ ~ alike (state_of (s_w s) 1) (truth 1%nat).
Proof.
  assert (T : typed [] blind_calls) by (cbn; repeat split; auto; discriminate).
  exists blind_calls, blind_truth. split; [exact T|]. split. { unfold blind_calls. repeat (apply Forall_cons; [first [exact I|exact (id3_proper 2)]|]). apply Forall_nil. }
  split. { unfold blind_calls. do 2 (apply Forall_cons; [exact I|]). apply Forall_cons; [cbn; lra|apply Forall_nil]. }
  split. { intros c [<-|[<-|[<-|[]]]] N; try (exfalso; apply N; reflexivity). apply (C45_residual 100 0 0 1 id3 false blind_truth v3zero 100 0); auto; cbn; try lra. rewrite Rplus_0_r, cos_0, sin_0. lra. }
  split. { unfold blind_calls. do 2 (apply Forall_cons; [exact I|]). apply Forall_cons; [|apply Forall_nil]. intros p x y Ep El. injection Ep as <-. injection El as <- <-. unfold nearby. cbn. lra. }
  split. { assert (I1 : In (CLandmark2d 100 0 0 1 id3 false) blind_calls) by at_ 2%nat. apply (pinned_hangs _ _ 0%nat); [exact (hangs_landmark2d _ _ _ _ _ _ _ I1 (id_positive 2))|]. apply (pinned_anchor _ _ 0%nat (P2 v3zero)). reflexivity. }
  intros lin rob. destruct (session_inv lin rob _ T) as (s & E & V & _).
  assert (B : state_of (s_w s) 0 = P2 v3zero /\ state_of (s_w s) 1 = L2 0 0).
  { clear - E. unfold blind_calls in E. cbv -[v3zero id3 IZR lvec res_landmark2d jac_landmark2d l3 lmat beside R1 R0] in E. injection E as <-. split; reflexivity. }
  destruct B as (B0 & B1). exists s. split; [exact E|]. split. { intros [|[|i]] m v G; try (destruct i; discriminate G); injection G as <- <-; rewrite ?B0, ?B1; (split; [reflexivity|]); auto; discriminate. }
  split.
  - rewrite (tracks_chi2 _ blind_calls _ (iv_tracks _ _ _ V)). apply consistent_chi2. intros c [<-|[<-|[<-|[]]]] N; try (exfalso; apply N; reflexivity). intros k Hk. cbn [map]. rewrite B0, B1. cbn [fc_res c_landmark2d]. rewrite landmark2d_close by (unfold gap2; cbn; lra). destruct k as [|[|k]]; try reflexivity. cbn in Hk. lia.
  - rewrite B1. cbn. lra.
Qed.
Print Assumptions C92_close_refuted.
(** ... and a pose that lies half a turn about (1,1,0) from its prior agrees with it *)
Definition prone : M4 := se3_of_Rt half_turn_xy v3zero.
Definition prone_calls : list pycall := [CNode STANDARD (P3 prone); CPose3d m4id 0 id3].
Theorem C92_half_turn_refuted : exists cs truth, typed [] cs /\ Forall call_info cs /\ Forall sound cs /\ consistent cs truth /\ rigid_states truth /\ Forall (clear_view truth) cs /\ pinned cs truth 0 /\
  forall lin rob, exists s, pycalls lin rob (solver_new world_new) cs = Some s /\ rearranged cs (state_of (s_w s)) truth /\ rigid_states (state_of (s_w s)) /\ chi2_of (s_w s) = 0 /\ ~ alike (state_of (s_w s) 0) (truth 0%nat).
Proof.
  assert (T : typed [] prone_calls) by (cbn; repeat split; auto; discriminate).
  exists prone_calls, (fun _ => P3 m4id). split; [exact T|]. split. { unfold prone_calls. repeat (apply Forall_cons; [first [exact I|exact (id3_proper 6)]|]). apply Forall_nil. }
  split. { apply Forall_cons; [exact I|]. apply Forall_cons; [exact rigid_id|apply Forall_nil]. }
  split. { intros c [<-|[<-|[]]] N; [exfalso; apply N; reflexivity|]. unfold residual_zero, call_factor. cbn [pycall_op map]. apply pose3d_zero_eq, rigid_id. }
  split. { intros i M Q. injection Q as <-. apply rigid_id. }
  split. { apply Forall_cons; [exact I|]. apply Forall_cons; [|apply Forall_nil]. left. intros th [Hth Tr]. pose proof PI_gt_3. cbn [pose_of mR m4id] in Tr. rewrite m3tr_id, m3mul_id_r in Tr. unfold m3trace, m3id in Tr. cbn in Tr. assert (cos th = 1) by lra. destruct (Rlt_dec th (PI / 2)); auto. assert (cos th <= 0) by (apply cos_le_0; lra). lra. }
  split. { eapply pinned_pose3d; [right; left; reflexivity|exact (id_positive 6)]. }
  intros lin rob. destruct (session_inv lin rob _ T) as (s & E & V & _).
  assert (B : state_of (s_w s) 0 = P3 prone /\ forall i, state_of (s_w s) (S i) = P2 v3zero).
  { clear - E. unfold prone_calls in E. generalize dependent prone. intros A E. cbv -[id3 IZR lvec res_pose3d jac_pose3d l6 lmat R1 R0 m4id] in E. injection E as <-. split; [reflexivity|]. intros [|i]; reflexivity. }
  destruct B as (B0 & B1). exists s. split; [exact E|]. split. { intros [|i] m v G; try (destruct i; discriminate G); injection G as <- <-; rewrite ?B0; (split; [reflexivity|]); discriminate. }
  split. { intros [|i] M Q; [|rewrite B1 in Q; discriminate]. rewrite B0 in Q. injection Q as <-. apply rigid_of_Rt, half_turn_xy_rotation. }
  split.
  - rewrite (tracks_chi2 _ prone_calls _ (iv_tracks _ _ _ V)). apply consistent_chi2. intros c [<-|[<-|[]]] N; [exfalso; apply N; reflexivity|]. unfold residual_zero, call_factor. cbn [pycall_op map]. rewrite B0. apply zero6_pose. unfold se3_mul.
    replace (m4mul prone (se3_inv m4id)) with prone. 2:{ replace (se3_inv m4id) with m4id by (unfold se3_inv; cbn [mR mt m4id]; lin). rewrite m4mul_id_r. reflexivity. }
    unfold prone. rewrite (se3_ln_vee_block (se3_of_Rt half_turn_xy v3zero) v3zero PI). 2:{ cbn [mR se3_of_Rt]. rewrite ln_half_turn_xy. f_equal. unfold hat3; lin. } rewrite rod_zero, m3app_id. reflexivity.
  - rewrite B0. cbn [alike]. intros Q. apply (f_equal mR) in Q. revert Q. apply half_turn_xy_not_id.
Qed.
Print Assumptions C92_half_turn_refuted.

(** *** Examples *)
(** an anchor, a relative pose, two landmarks and a pose that sees them, a turn ahead *)
Definition ahead : V3 := mkV3 1 0 (2 * PI).
Definition survey_calls : list pycall :=
  [CNode ANCHOR (P2 v3zero); CNode STANDARD (P2 ahead); C2Poses2d (mkV3 1 0 0) 0 1 id3 false; CNode STANDARD (L2 2 0); CNode STANDARD (L2 3 0); CLandmark2d 2 0 0 2 id3 false; CLandmark2d 3 0 0 3 id3 false;
   CNode STANDARD (P2 ahead); CLandmark2d 1 0 4 2 id3 false; CLandmark2d 2 0 4 3 id3 false].
Definition survey_truth (i : nat) : nval := nth i [P2 v3zero; P2 (mkV3 1 0 0); L2 2 0; L2 3 0; P2 (mkV3 1 0 0)] (P2 v3zero).
Example C92_ex_pinned : forall i, (i < 5)%nat -> pinned survey_calls survey_truth i.
Proof.
  assert (P0 : pinned survey_calls survey_truth 0) by (apply (pinned_anchor _ _ 0%nat (P2 v3zero)); reflexivity).
  assert (I2 : In (CLandmark2d 2 0 0 2 id3 false) survey_calls) by at_ 5%nat. assert (I3 : In (CLandmark2d 3 0 0 3 id3 false) survey_calls) by at_ 6%nat. assert (J2 : In (CLandmark2d 1 0 4 2 id3 false) survey_calls) by at_ 8%nat. assert (J3 : In (CLandmark2d 2 0 4 3 id3 false) survey_calls) by at_ 9%nat. assert (O1 : In (C2Poses2d (mkV3 1 0 0) 0 1 id3 false) survey_calls) by at_ 2%nat.
  assert (P2' : pinned survey_calls survey_truth 2) by exact (pinned_hangs _ _ 0%nat 2%nat (hangs_landmark2d _ _ _ _ _ _ _ I2 (id_positive 2)) P0). assert (P3' : pinned survey_calls survey_truth 3) by exact (pinned_hangs _ _ 0%nat 3%nat (hangs_landmark2d _ _ _ _ _ _ _ I3 (id_positive 2)) P0).
  intros [|[|[|[|[|i]]]]] Hi; auto; [exact (pinned_hangs _ _ 0%nat 1%nat (hangs_2poses2d _ _ _ _ _ _ O1 (id_positive 3)) P0)| |lia].
  refine (pinned_2d _ _ _ _ _ _ _ _ _ _ _ _ _ _ _ _ _ J2 (id_positive 2) P2' J3 (id_positive 2) P3' eq_refl eq_refl _). intros Q. injection Q. lra.
Qed.
Lemma survey_run lin rob : exists s, pycalls lin rob (solver_new world_new) survey_calls = Some s /\ state_of (s_w s) 0 = P2 v3zero /\ state_of (s_w s) 1 = P2 ahead /\ state_of (s_w s) 2 = L2 2 0 /\ state_of (s_w s) 3 = L2 3 0 /\ state_of (s_w s) 4 = P2 ahead /\ forall i, state_of (s_w s) (5 + i) = P2 v3zero.
Proof. eexists. split; [cbv -[res_2poses2d jac_2poses2d res_landmark2d jac_landmark2d id3 lvec l3 lmat beside IZR ahead v3zero R0 R1]; reflexivity|]. do 5 (split; [reflexivity|]). intros [|i]; reflexivity. Qed.
Lemma survey_states st q : (q = ahead \/ q = mkV3 1 0 0) -> st 0%nat = P2 v3zero -> st 1%nat = P2 q -> st 2%nat = L2 2 0 -> st 3%nat = L2 3 0 -> st 4%nat = P2 q -> consistent survey_calls st /\ Forall (clear_view st) survey_calls.
Proof.
  intros Hq S0 S1 S2 S3 S4. assert (Q : vx q = 1 /\ vy q = 0 /\ cos (vz q + 0) = 1 /\ sin (vz q + 0) = 0 /\ same_heading (vz q) 0) by (destruct Hq as [-> | ->]; cbn; rewrite Rplus_0_r; [rewrite cos_2PI, sin_2PI|rewrite cos_0, sin_0]; do 4 (split; [reflexivity|]); [exists 1%Z|exists 0%Z]; ring).
  destruct Q as (Qx & Qy & Qc & Qs & Qh). assert (O : 0 <= 1 /\ 0 <= 2 /\ 0 <= 3) by lra. destruct O as (O1 & O2 & O3). split.
  - intros c I N. destruct I as [<-|[<-|[<-|[<-|[<-|[<-|[<-|[<-|[<-|[<-|[]]]]]]]]]]]; try (exfalso; apply N; reflexivity).
    + apply (C40_residual (mkV3 1 0 0) 0 1 id3 false st v3zero q); auto. unfold same_pose2, compose2, v3zero. cbn. rewrite Qx, Qy, cos_0, sin_0. split; [ring|]. split; [ring|]. rewrite Rplus_0_l. exact Qh.
    + apply (C45_residual 2 0 0 2 id3 false st v3zero 2 0); auto; cbn; try lra. rewrite Rplus_0_r, cos_0, sin_0. lra.
    + apply (C45_residual 3 0 0 3 id3 false st v3zero 3 0); auto; cbn; try lra. rewrite Rplus_0_r, cos_0, sin_0. lra.
    + apply (C45_residual 1 0 4 2 id3 false st q 2 0); auto; rewrite ?Qc, ?Qs, ?Qx, ?Qy; lra.
    + apply (C45_residual 2 0 4 3 id3 false st q 3 0); auto; rewrite ?Qc, ?Qs, ?Qx, ?Qy; lra.
  - unfold survey_calls. repeat (apply Forall_cons; [first [exact I|intros p x y Ep El; rewrite ?S0, ?S4 in Ep; rewrite ?S2, ?S3 in El; injection Ep as <-; injection El as <- <-; unfold nearby; cbn [v3zero vx vy]; rewrite ?Qx, ?Qy; lra]|]). apply Forall_nil.
Qed.
Example C92_ex_right : typed [] survey_calls /\ Forall call_info survey_calls /\ Forall sound survey_calls /\ consistent survey_calls survey_truth /\ rigid_states survey_truth /\ Forall (clear_view survey_truth) survey_calls /\
  forall lin rob, exists s, pycalls lin rob (solver_new world_new) survey_calls = Some s /\ rearranged survey_calls (state_of (s_w s)) survey_truth /\ rigid_states (state_of (s_w s)) /\ Forall (clear_view (state_of (s_w s))) survey_calls /\ chi2_of (s_w s) = 0 /\ least_squares survey_calls (state_of (s_w s)).
Proof.
  assert (T : typed [] survey_calls) by (cbn; repeat split; auto; discriminate). assert (Ci : Forall call_info survey_calls) by (unfold survey_calls; repeat (apply Forall_cons; [first [exact I|exact (id3_proper 2)|exact (id3_proper 3)]|]); apply Forall_nil).
  destruct (survey_states survey_truth (mkV3 1 0 0)) as [Co Cl]; auto.
  split; [exact T|]. split; [exact Ci|]. split. { unfold survey_calls. repeat (apply Forall_cons; [first [exact I|cbn; lra]|]). apply Forall_nil. }
  split; [exact Co|]. split. { intros i M Q. destruct i as [|[|[|[|[|[|i]]]]]]; discriminate. } split; [exact Cl|].
  intros lin rob. destruct (session_inv lin rob _ T) as (s & E & V & _). destruct (survey_run lin rob) as (s0 & E0 & S0 & S1 & S2 & S3 & S4 & S5). rewrite E in E0. injection E0 as <-. destruct (survey_states (state_of (s_w s)) ahead) as [Co' Cl']; auto. exists s. split; [exact E|].
  split. { intros i m v G. destruct (mode_of rob _ _ i m v V G) as (_ & _ & _ & _ & _ & K). rewrite K. destruct i as [|[|[|[|[|i]]]]]; try (destruct i; discriminate G); injection G as <- <-; (split; [reflexivity|intros A]); first [discriminate A|rewrite S0; reflexivity]. }
  split. { intros i M Q. clear - S0 S1 S2 S3 S4 S5 Q. destruct i as [|[|[|[|[|i]]]]]; try congruence. change (S (S (S (S (S i))))) with (5 + i)%nat in Q. congruence. }
  split; [exact Cl'|]. assert (Z := consistent_chi2 _ _ Co'). split; [rewrite (tracks_chi2 _ survey_calls _ (iv_tracks _ _ _ V)); exact Z|]. intros st' _. rewrite Z. apply lsum_nonneg. intros c I. rewrite Forall_forall in Ci. apply chi2_nonneg, Ci, I.
Qed.
(** two poses on the positive sides of three walls *)
Example C92_ex_planes : exists a b c M, independent (v4h a) (v4h b) (v4h c) /\ rigid M /\ residual_zero (CPlane4d a 3 0 id3) behind_truth /\ residual_zero (CPlane4d b 3 1 id3) behind_truth /\ residual_zero (CPlane4d c 3 2 id3) behind_truth /\
  behind_truth 3 = P3 M /\ forall p, p = a \/ p = b \/ p = c -> 0 <= v3dot (v4h p) (mt M) + v4l p.
Proof.
  exists (wall (mkV3 1 0 0)), (wall (mkV3 0 1 0)), (wall (mkV3 0 0 1)), m4id. split; [unfold independent, v3dot, v3cross; cbn; lra|]. split; [apply rigid_id|].
  assert (Q : forall n, m4app (m4tr m4id) (wall n) = wall n) by (intros n; unfold wall, m4id; destruct n; lin).
  split; [|split; [|split; [|split; [reflexivity|]]]].
  - apply (wall_seen _ 0%nat id3 _ m4id); auto. unfold v3dot; cbn; ring.
  - apply (wall_seen _ 1%nat id3 _ m4id); auto. unfold v3dot; cbn; ring.
  - apply (wall_seen _ 2%nat id3 _ m4id); auto. unfold v3dot; cbn; ring.
  - intros p [-> | [-> | ->]]; unfold v3dot; cbn; lra.
Qed.
