(** Pinned nodes are the same wherever all residuals are zero (C92). *)
Require Import Reals List Arith Lia Lra Psatz Bool.
From Verif Require Import Lin LinFacts SpecGeom SO3 SE3 SO3Exp SO3Ln SO3Misc SO3Near SO3Dist SO3Tri SE3Alg SE3Exp SE3Ln AngleProofs TrigBounds Nodes NodesProofs Robust Graph Sums Solve SpecSolve SolveFrame SolveProofs Session SessionProofs.
From Verif Require Import Factors SpecFactors FactorsDer FactorsPlanar Factors3D Factors3DLn FactorsMore FactorsSession SpecSolvable SolvableSession MappingSession PropFactors SpecRobustCost RobustCost SpecLMStops SpecLocate Locate SpecRightMap.
Import ListNotations.
Local Open Scope R_scope.

(** ** planar poses *)
Lemma heading_trig a b : same_heading a b -> cos a = cos b /\ sin a = sin b.
Proof. intros [k ->]. rewrite cos_period_Z, sin_period_Z. auto. Qed.
Lemma compose_on o o' t t' q : same_pose2 t (compose2 o q) -> same_pose2 t' (compose2 o' q) -> same_pose2 o o' -> same_pose2 t t'.
Proof.
  unfold same_pose2, compose2. cbn [vx vy vz]. intros (A & B & [k C]) (A' & B' & [k' C']) (D & E & F). destruct (heading_trig _ _ F) as [X Y]. destruct F as [n F]. rewrite A, B, A', B', D, E, X, Y. split; auto. split; auto.
  exists (k - k' + n)%Z. rewrite plus_IZR, minus_IZR. lra.
Qed.
Lemma compose_back o o' t t' q : same_pose2 t (compose2 o q) -> same_pose2 t' (compose2 o' q) -> same_pose2 t t' -> same_pose2 o o'.
Proof.
  unfold same_pose2, compose2. cbn [vx vy vz]. intros (A & B & [k C]) (A' & B' & [k' C']) (D & E & [n F]). assert (H : same_heading (vz o) (vz o')) by (exists (k' - k + n)%Z; rewrite plus_IZR, minus_IZR; lra).
  destruct (heading_trig _ _ H) as [X Y]. rewrite X, Y in *. split; [lra|]. split; [lra|exact H].
Qed.
Lemma same_pose2_refl p : same_pose2 p p. Proof. repeat split. exists 0%Z. lra. Qed.

(** ** 3D poses *)
Lemma legible_read A : legible A -> well_read A. Proof. intros H. exact H. Qed.
Lemma ln_zero_read A : rotation A -> legible A -> v3norm (so3_ln_vee A) = 0 -> A = m3id.
Proof.
  intros HA L Z. destruct (ln_zero_iff A HA Z) as [E|F]; auto. destruct L as [L|[N1 N2]]; [|exfalso; unfold fixes in F; destruct F; contradiction].
  destruct (rotation_angle_exists A HA) as [t Ht]. specialize (L t Ht). pose proof PI_gt_3. destruct (rotation_cases A t HA Ht) as [[_ E]|(Hp & w & Hn & HW)]; auto. exfalso. rewrite <- HW in Z. unfold so3_ln_vee in Z. destruct (Rlt_dec (v3norm w) (1 / 100000)) as [S|S].
  - rewrite ln_rodx_small in Z by lra. cbn [fst] in Z. rewrite vee3_hat3, v3norm_scal in Z. pose proof (small_k (v3norm w) ltac:(lra)) as K. assert (/ 10 ^ 21 < 1) by (simpl; lra). rewrite Rabs_right in Z by lra. nra.
  - rewrite ln_rodx_acute in Z; [|lra|rewrite Hn; apply cos_gt_0; lra|lra]. cbn [fst] in Z. rewrite vee3_hat3 in Z. lra.
Qed.
Lemma ln_read T : rigid T -> legible (mR T) -> se3_ln_vee T = v6zero -> T = m4id.
Proof.
  intros HT L Z. assert (E : mR T = m3id).
  { apply ln_zero_read; [apply HT|exact L|]. replace (so3_ln_vee (mR T)) with (v6w (se3_ln_vee T)); [rewrite Z; cbn; unfold v3norm, v3sqn; replace (v3dot v3zero v3zero) with 0 by lin; apply sqrt_0|].
    unfold se3_ln_vee, se3_ln, so3_ln_vee. destruct (so3_ln (mR T)). reflexivity. }
  rewrite (se3_ln_vee_block T v3zero 0) in Z by (rewrite E; apply ln_id). rewrite rod_zero, m3app_id in Z. injection Z as Z. rewrite (rigid_form T HT), E, Z. reflexivity.
Qed.
Lemma prior_read obs T : rigid obs -> rigid T -> legible (m3mul (mR T) (m3tr (mR obs))) -> zero_residual (c_pose3d obs) [P3 T] -> T = obs.
Proof.
  intros HO HT L Z. change (forall i, (i < 6)%nat -> lvec (l6 (res_pose3d obs T)) i = 0) in Z. apply v6_zero_iff in Z. unfold res_pose3d in Z.
  assert (E : se3_mul T (se3_inv obs) = m4id). { apply ln_read; auto; [unfold se3_mul; auto using rigid_mul, rigid_inv|]. replace (mR (se3_mul T (se3_inv obs))) with (m3mul (mR T) (m3tr (mR obs))); auto. unfold se3_mul. rewrite (rigid_form T HT), (rigid_form obs HO), inv_of_Rt, mul_of_Rt. reflexivity. }
  unfold se3_mul in E. rewrite <- (m4mul_id_l obs), <- E, m4mul_assoc, rigid_linv, m4mul_id_r by auto. reflexivity.
Qed.
Lemma relative_read obs init A B : rigid obs -> rigid A -> rigid B -> legible (mR (m4mul (m4mul A obs) (se3_inv B))) -> zero_residual (c_2poses3d obs init) [P3 A; P3 B] -> B = m4mul A obs.
Proof.
  intros HO HA HB L Z. change (forall i, (i < 6)%nat -> lvec (l6 (res_2poses3d obs A B)) i = 0) in Z. apply v6_zero_iff in Z. apply tr_id_iff; auto. apply ln_read; auto using tr_rigid.
Qed.
Lemma mul_cancel A B C : rigid C -> m4mul A C = m4mul B C -> A = B.
Proof. intros HC E. rewrite <- (m4mul_id_r A), <- (m4mul_id_r B), <- (rigid_rinv C HC), <- !m4mul_assoc, E. reflexivity. Qed.

(** ** planes *)
Lemma rigid_tr_inj T p q : rigid T -> m4app (m4tr T) p = m4app (m4tr T) q -> p = q.
Proof.
  intros HT E. assert (I : forall x, m4app (m4tr (se3_inv T)) (m4app (m4tr T) x) = x).
  { intros x. transitivity (m4app (m4tr (m4mul T (se3_inv T))) x); [|rewrite rigid_rinv by auto; destruct x as [[? ? ?] ?]; unfold m4id; lin].
    clear. destruct T as [[] [] [] ?], (se3_inv _) as [[] [] [] ?], x as [[] ?]. unfold m4app, m4tr, m4mul, m3app, m3tr, m3mul, v3dot, v3add, v3scal; cbn. f_equal; [f_equal|]; ring. }
  rewrite <- (I p), <- (I q), E. reflexivity.
Qed.
Lemma plane_alike T p q n : rigid T -> (m4app (m4tr T) p = n \/ m4app (m4tr T) p = v4scal (-1) n) -> (m4app (m4tr T) q = n \/ m4app (m4tr T) q = v4scal (-1) n) -> p = q \/ p = v4scal (-1) q.
Proof.
  intros HT A B. assert (L : m4app (m4tr T) (v4scal (-1) q) = v4scal (-1) (m4app (m4tr T) q)) by (clear; destruct T as [[] [] [] ?], q as [[] ?]; unfold m4app, m4tr, v4scal, m3app, m3tr, v3dot, v3add, v3scal; cbn; f_equal; [f_equal|]; ring).
  assert (D : v4scal (-1) (v4scal (-1) n) = n) by (clear; destruct n as [[] ?]; unfold v4scal, v3scal; cbn; f_equal; [f_equal|]; ring).
  destruct A as [A|A], B as [B|B]; [left|right|right|left]; apply (rigid_tr_inj T); auto; rewrite ?L, A, B, ?D; reflexivity.
Qed.

(** ** two arrangements that meet all measurements *)
Section Two.
  Variables (cs : list pycall) (st st' : nat -> nval).
  Hypothesis T : typed [] cs.
  Hypothesis K : forall i k, nth_error (fold_left kinds_after cs []) i = Some k -> kind_of (st i) = k /\ kind_of (st' i) = k.
  Hypothesis Z : forall c, In c cs -> certain c -> call_factor c <> None -> residual_zero c st /\ residual_zero c st'.
  Hypothesis R : rigid_states st.
  Hypothesis R' : rigid_states st'.
  Hypothesis So : Forall sound cs.
  Hypothesis V : Forall (clear_view st) cs.
  Hypothesis V' : Forall (clear_view st') cs.
  Hypothesis A : forall i v, nth_error (nodes_of cs) i = Some (ANCHOR, v) -> st' i = st i.

  Lemma alike_refl v : alike v v.
  Proof. destruct v; cbn; auto. apply same_pose2_refl. Qed.
  Lemma node2 i : nth_error (fold_left kinds_after cs []) i = Some KP2 -> exists p p', st i = P2 p /\ st' i = P2 p'.
  Proof. intros E. destruct (K _ _ E) as [a b]. destruct (st i), (st' i); try discriminate. eauto. Qed.
  Lemma node3 i : nth_error (fold_left kinds_after cs []) i = Some KP3 -> exists p p', st i = P3 p /\ st' i = P3 p' /\ rigid p /\ rigid p'.
  Proof. intros E. destruct (K _ _ E) as [a b]. destruct (st i) eqn:Q, (st' i) eqn:Q'; try discriminate. do 2 eexists. repeat (split; [reflexivity|]). split; [apply (R _ _ Q)|apply (R' _ _ Q')]. Qed.
  Lemma nodel2 i : nth_error (fold_left kinds_after cs []) i = Some KL2 -> exists x y x' y', st i = L2 x y /\ st' i = L2 x' y'.
  Proof. intros E. destruct (K _ _ E) as [a b]. destruct (st i), (st' i); try discriminate. eauto 8. Qed.
  Lemma nodel3 i : nth_error (fold_left kinds_after cs []) i = Some KL3 -> exists p p', st i = L3 p /\ st' i = L3 p'.
  Proof. intros E. destruct (K _ _ E) as [a b]. destruct (st i), (st' i); try discriminate. eauto. Qed.
  Lemma nodepl i : nth_error (fold_left kinds_after cs []) i = Some KPL -> exists p p', st i = PL p /\ st' i = PL p'.
  Proof. intros E. destruct (K _ _ E) as [a b]. destruct (st i), (st' i); try discriminate. eauto. Qed.
  Lemma kind_ne i j a b : nth_error (fold_left kinds_after cs []) i = Some a -> nth_error (fold_left kinds_after cs []) j = Some b -> a <> b -> i <> j.
  Proof. intros E F N ->. congruence. Qed.

  Lemma rel2 obs i j W u : In (C2Poses2d obs i j W u) cs -> positive 3 W -> (alike (st' i) (st i) <-> alike (st' j) (st j)).
  Proof.
    intros I P. destruct (typed_in cs _ [] T I) as (N & Ki & Kj). destruct (node2 i Ki) as (o & o' & Si & Si'). destruct (node2 j Kj) as (t & t' & Sj & Sj').
    assert (Ce : certain (C2Poses2d obs i j W u)) by (unfold certain, call_factor; cbn [pycall_op]; destruct (i <? j)%nat; exact P). destruct (Z _ I Ce) as [Y Y']; [unfold call_factor; cbn [pycall_op]; destruct (i <? j)%nat; discriminate|]. rewrite Si, Si', Sj, Sj'. cbn [alike].
    unfold residual_zero, call_factor in Y, Y'. cbn [pycall_op] in Y, Y'. destruct (Nat.ltb_spec i j); cbn [map] in Y, Y'; rewrite ?Si, ?Sj in Y; rewrite ?Si', ?Sj' in Y'; apply poses2d_zero in Y; apply poses2d_zero in Y'; split; intros G; first [eapply compose_on; [exact Y'|exact Y|exact G]|eapply compose_back; [exact Y'|exact Y|exact G]].
  Qed.
  Lemma odom2 obs i j W : In (COdom2d obs i j W) cs -> positive 3 W -> (alike (st' i) (st i) <-> alike (st' j) (st j)).
  Proof.
    intros I P. destruct (typed_in cs _ [] T I) as (N & Ki & Kj). destruct (node2 i Ki) as (o & o' & Si & Si'). destruct (node2 j Kj) as (t & t' & Sj & Sj').
    assert (Ce : certain (COdom2d obs i j W)) by (unfold certain, call_factor; cbn [pycall_op]; destruct (i <? j)%nat; exact P). destruct (Z _ I Ce) as [Y Y']; [unfold call_factor; cbn [pycall_op]; destruct (i <? j)%nat; discriminate|]. rewrite Si, Si', Sj, Sj'. cbn [alike].
    unfold residual_zero, call_factor in Y, Y'. cbn [pycall_op] in Y, Y'. destruct (Nat.ltb_spec i j); cbn [map] in Y, Y'; rewrite ?Si, ?Sj in Y; rewrite ?Si', ?Sj' in Y'; apply odom_zero in Y; apply odom_zero in Y'; rewrite odom_compose in Y, Y'; split; intros G.
    1,4: eapply compose_on; [exact Y'|exact Y|]; eapply compose_on; [apply same_pose2_refl|apply same_pose2_refl|exact G].
    all: eapply compose_back; [apply same_pose2_refl|apply same_pose2_refl|]; eapply compose_back; [exact Y'|exact Y|exact G].
  Qed.
  Lemma rel3 obs i j W u : In (C2Poses3d obs i j W u) cs -> positive 6 W -> (alike (st' i) (st i) <-> alike (st' j) (st j)).
  Proof.
    intros I P. destruct (typed_in cs _ [] T I) as (N & Ki & Kj). destruct (node3 i Ki) as (o & o' & Si & Si' & Ro & Ro'). destruct (node3 j Kj) as (t & t' & Sj & Sj' & Rt & Rt').
    assert (Ce : certain (C2Poses3d obs i j W u)) by (unfold certain, call_factor; cbn [pycall_op]; destruct (i <? j)%nat; exact P). destruct (Z _ I Ce) as [Y Y']; [unfold call_factor; cbn [pycall_op]; destruct (i <? j)%nat; discriminate|].
    pose proof (proj1 (Forall_forall _ _) So _ I) as HO. pose proof (proj1 (Forall_forall _ _) V _ I) as C. pose proof (proj1 (Forall_forall _ _) V' _ I) as C'. cbn in HO. unfold clear_view, relative_error in C, C'. rewrite Si, Sj in C. rewrite Si', Sj' in C'. cbn [pose_of] in C, C'. rewrite Si, Si', Sj, Sj'. cbn [alike].
    unfold residual_zero, call_factor in Y, Y'. cbn [pycall_op] in Y, Y'. destruct (Nat.ltb_spec i j); cbn [map] in Y, Y'; rewrite ?Si, ?Sj in Y; rewrite ?Si', ?Sj' in Y'; apply relative_read in Y; auto; apply relative_read in Y'; auto; subst; split; intros G; try (rewrite G; reflexivity); apply mul_cancel in G; auto.
  Qed.
  Lemma sees2 r b i j W u : In (CLandmark2d r b i j W u) cs -> positive 2 W -> exists p p' x y x' y', st i = P2 p /\ st' i = P2 p' /\ st j = L2 x y /\ st' j = L2 x' y' /\
    x = vx p + r * cos (vz p + b) /\ y = vy p + r * sin (vz p + b) /\ x' = vx p' + r * cos (vz p' + b) /\ y' = vy p' + r * sin (vz p' + b).
  Proof.
    intros I P. destruct (typed_in cs _ [] T I) as (Ki & Kj). destruct (node2 i Ki) as (p & p' & Si & Si'). destruct (nodel2 j Kj) as (x & y & x' & y' & Sj & Sj'). assert (N : i <> j) by (eapply kind_ne; eauto; discriminate).
    assert (Ce : certain (CLandmark2d r b i j W u)) by (unfold certain, call_factor; cbn [pycall_op]; destruct (i <? j)%nat; exact P). destruct (Z _ I Ce) as [Y Y']; [unfold call_factor; cbn [pycall_op]; destruct (i <? j)%nat; discriminate|].
    pose proof (proj1 (Forall_forall _ _) So _ I) as HO. pose proof (proj1 (Forall_forall _ _) V _ I p x y Si Sj) as C. pose proof (proj1 (Forall_forall _ _) V' _ I p' x' y' Si' Sj') as C'. cbn in HO. unfold nearby in C, C'. apply Rnot_lt_le in C, C'.
    apply (C45_residual r b i j W u st p x y) in Y; auto. apply (C45_residual r b i j W u st' p' x' y') in Y'; auto. destruct Y as [Y1 Y2], Y' as [Y1' Y2']. exists p, p', x, y, x', y'. repeat (split; [assumption|]). assumption.
  Qed.
  Lemma sees3 obs i j W u : In (CLandmark3d obs i j W u) cs -> positive 3 W -> exists M M' l l', st i = P3 M /\ st' i = P3 M' /\ rigid M /\ rigid M' /\ st j = L3 l /\ st' j = L3 l' /\
    l = v3add (m3app (mR M) obs) (mt M) /\ l' = v3add (m3app (mR M') obs) (mt M').
  Proof.
    intros I P. destruct (typed_in cs _ [] T I) as (Ki & Kj). destruct (node3 i Ki) as (M & M' & Si & Si' & Rm & Rm'). destruct (nodel3 j Kj) as (l & l' & Sj & Sj'). assert (N : i <> j) by (eapply kind_ne; eauto; discriminate).
    assert (Ce : certain (CLandmark3d obs i j W u)) by (unfold certain, call_factor; cbn [pycall_op]; destruct (i <? j)%nat; exact P). destruct (Z _ I Ce) as [Y Y']; [unfold call_factor; cbn [pycall_op]; destruct (i <? j)%nat; discriminate|].
    apply (C46_residual obs i j W u st M l) in Y; auto. apply (C46_residual obs i j W u st' M' l') in Y'; auto. exists M, M', l, l'. repeat (split; [assumption|]). assumption.
  Qed.
  Lemma seesp obs i j W : In (CPlane4d obs i j W) cs -> positive 4 W -> alike (st' i) (st i) -> alike (st' j) (st j).
  Proof.
    intros I P. destruct (typed_in cs _ [] T I) as (Ki & Kj). destruct (node3 i Ki) as (M & M' & Si & Si' & Rm & Rm'). destruct (nodepl j Kj) as (l & l' & Sj & Sj'). assert (N : i <> j) by (eapply kind_ne; eauto; discriminate).
    assert (Ce : certain (CPlane4d obs i j W)) by (unfold certain, call_factor; cbn [pycall_op]; destruct (i <? j)%nat; exact P). destruct (Z _ I Ce) as [Y Y']; [unfold call_factor; cbn [pycall_op]; destruct (i <? j)%nat; discriminate|].
    apply (C47_residual obs i j W st M l) in Y; auto. apply (C47_residual obs i j W st' M' l') in Y'; auto. rewrite Si, Si', Sj, Sj'. cbn [alike]. intros ->. apply (plane_alike M l' l (plane_normalize obs) Rm); [destruct Y' as [[_ E]|[_ E]]; auto|destruct Y as [[_ E]|[_ E]]; auto].
  Qed.
  Theorem pin : forall i, pinned cs st i -> alike (st' i) (st i).
  Proof.
    induction 1 as [i v E|obs i W I P|obs i W I P|i j Hh _ IH|r b r' b' i j k W W' u u' x y x' y' I P _ IHj I' P' _ IHk Sj Sk N|obs obs' obs'' i j k l W W' W'' u u' u'' a b c I P _ IHj I' P' _ IHk I'' P'' _ IHl Sj Sk Sl N].
    - rewrite (A i v E). apply alike_refl.
    - pose proof (typed_in cs _ [] T I) as Ki. cbn in Ki. destruct (node2 i Ki) as (p & p' & Si & Si'). destruct (Z _ I P ltac:(discriminate)) as [Y Y']. apply (C49_residual obs i W st p Si) in Y. apply (C49_residual obs i W st' p' Si') in Y'. rewrite Si, Si'. cbn [alike].
      destruct Y as (Y1 & Y2 & [n Y3]), Y' as (Y1' & Y2' & [n' Y3']). split; [congruence|]. split; [congruence|]. exists (n' - n)%Z. rewrite minus_IZR. lra.
    - pose proof (typed_in cs _ [] T I) as Ki. cbn in Ki. destruct (node3 i Ki) as (p & p' & Si & Si' & Rp & Rp'). destruct (Z _ I P ltac:(discriminate)) as [Y Y'].
      pose proof (proj1 (Forall_forall _ _) So _ I) as HO. pose proof (proj1 (Forall_forall _ _) V _ I) as C. pose proof (proj1 (Forall_forall _ _) V' _ I) as C'. cbn in HO. unfold clear_view in C, C'. rewrite Si in C. rewrite Si' in C'. cbn [pose_of] in C, C'. rewrite Si, Si'. cbn [alike].
      unfold residual_zero, call_factor in Y, Y'. cbn [pycall_op map] in Y, Y'. rewrite Si in Y. rewrite Si' in Y'. apply prior_read in Y; auto. apply prior_read in Y'; auto. congruence.
    - destruct Hh as [obs i j W u I Po|obs i j W u I Po|obs i j W I Po|obs i j W I Po|obs i j W u I Po|obs i j W u I Po|r b i j W u I Po|obs i j W u I Po|obs i j W I Po].
      + apply (rel2 obs i j W u); auto.
      + apply (rel2 obs i j W u); auto.
      + apply (odom2 obs i j W); auto.
      + apply (odom2 obs i j W); auto.
      + apply (rel3 obs i j W u); auto.
      + apply (rel3 obs i j W u); auto.
      + destruct (sees2 r b i j W u I Po) as (p & p' & x & y & x' & y' & Si & Si' & Sj & Sj' & -> & -> & -> & ->). rewrite Si, Si' in IH. rewrite Sj, Sj'. cbn [alike] in *. destruct IH as (E & F & [n G]). rewrite E, F, G. replace (vz p + 2 * PI * IZR n + b) with (vz p + b + 2 * PI * IZR n) by ring. rewrite cos_period_Z, sin_period_Z. auto.
      + destruct (sees3 obs i j W u I Po) as (p & p' & x & x' & Si & Si' & _ & _ & Sj & Sj' & -> & ->). rewrite Si, Si' in IH. rewrite Sj, Sj'. cbn [alike] in *. congruence.
      + apply (seesp obs i j W); auto.
    - destruct (sees2 r b i j W u I P) as (p & p' & x0 & y0 & x0' & y0' & Si & Si' & Qj & Qj' & A1 & A2 & A3 & A4). destruct (sees2 r' b' i k W' u' I' P') as (p1 & p1' & x1 & y1 & x1' & y1' & Ti & Ti' & Qk & Qk' & B1 & B2 & B3 & B4).
      assert (p1 = p) by congruence. assert (p1' = p') by congruence. subst p1 p1'. rewrite Qj, Qj' in IHj. rewrite Qk, Qk' in IHk. cbn [alike] in IHj, IHk. destruct IHj as [J1 J2], IHk as [K1 K2]. rewrite Qj in Sj. injection Sj as <- <-. rewrite Qk in Sk. injection Sk as <- <-. rewrite Si, Si'. cbn [alike].
      destruct (same_place2 (vx p') (vy p') (vz p') (vx p) (vy p) (vz p) r b r' b') as (E1 & E2 & E3); try congruence. repeat split; auto.
    - destruct (sees3 obs i j W u I P) as (M & M' & q & q' & Si & Si' & RM & RM' & Qj & Qj' & A1 & A2). destruct (sees3 obs' i k W' u' I' P') as (M1 & M1' & q1 & q1' & Ti & Ti' & _ & _ & Qk & Qk' & B1 & B2). destruct (sees3 obs'' i l W'' u'' I'' P'') as (M2 & M2' & q2 & q2' & Ui & Ui' & _ & _ & Ql & Ql' & C1 & C2).
      assert (M1 = M) by congruence. assert (M1' = M') by congruence. assert (M2 = M) by congruence. assert (M2' = M') by congruence. subst M1 M1' M2 M2'. rewrite Qj, Qj' in IHj. rewrite Qk, Qk' in IHk. rewrite Ql, Ql' in IHl. cbn [alike] in IHj, IHk, IHl.
      rewrite Qj in Sj. injection Sj as <-. rewrite Qk in Sk. injection Sk as <-. rewrite Ql in Sl. injection Sl as <-. rewrite Si, Si'. cbn [alike].
      destruct (same_place (mR M') (mR M) (mt M') (mt M) obs obs' obs'') as [E1 E2]; try congruence; try apply RM; try apply RM'.
      + intros Co. apply N. unfold collinear in *. transitivity (m3app (mR M) (v3cross (v3sub obs' obs) (v3sub obs'' obs))).
        * rewrite cross_rot by apply RM. rewrite A1, B1, C1. f_equal; lina.
        * rewrite Co. unfold m3app, v3zero. cbn. f_equal; ring.
      + rewrite (rigid_form M RM), (rigid_form M' RM'), E1, E2. reflexivity.
  Qed.
End Two.

(** ** chi2 zero *)
Lemma certain_zero cs st : Forall call_info cs -> lsum cs (call_chi2 st) = 0 -> forall c, In c cs -> certain c -> call_factor c <> None -> residual_zero c st.
Proof.
  intros P Z c I C N. rewrite Forall_forall in P. assert (E : call_chi2 st c = 0) by (apply (lsum_zero_all cs (call_chi2 st)); auto; intros a Ia; apply chi2_nonneg, P, Ia).
  unfold call_chi2 in E. unfold certain in C. unfold residual_zero, zero_residual. destruct (call_factor c) as [[[cl ids] W]|]; [|congruence]. apply C. lra.
Qed.
