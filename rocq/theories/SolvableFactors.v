(** Which increments the factor classes notice (C80). *)
Require Import Reals List Arith Lia Lra Psatz Bool.
From Verif Require Import Lin LinFacts SpecGeom SO3 SE3 SO3Exp AngleProofs Nodes Robust Graph Sums Solve SpecSolve Session Factors SpecFactors FactorsDer SpecFrame SpecSolvable.
Import ListNotations.
Local Open Scope R_scope.

Definition none_below (n : nat) (d : nat -> R) : Prop := forall k, (k < n)%nat -> d k = 0.
Definition unseen (c : fclass) (vs : list nval) (ds : list (nat -> R)) : Prop :=
  forall i, (i < fc_dim c)%nat -> row_dir (fc_jac c vs i) 0 vs ds = 0.

(** ** 3x3 matrices *)
Lemma m3_inj A v : m3det A <> 0 -> m3app A v = v3zero -> v = v3zero.
Proof.
  intros D E. assert (X : m3app (m3adj A) (m3app A v) = v3scal (m3det A) v) by lina. rewrite E in X.
  assert (Z : m3app (m3adj A) v3zero = v3zero) by (unfold m3app, v3zero; cbn; f_equal; ring). rewrite Z in X. destruct v as [a b c]. unfold v3scal, v3zero in X. cbn in X. injection X as X1 X2 X3.
  unfold v3zero. f_equal; nra.
Qed.
Lemma m3_inj_rows A x y z : m3det A <> 0 -> a00 A * x + a01 A * y + a02 A * z = 0 -> a10 A * x + a11 A * y + a12 A * z = 0 -> a20 A * x + a21 A * y + a22 A * z = 0 -> x = 0 /\ y = 0 /\ z = 0.
Proof.
  intros D E0 E1 E2. assert (X : mkV3 x y z = v3zero) by (apply (m3_inj A); auto; unfold m3app, v3zero; cbn; rewrite E0, E1, E2; reflexivity).
  unfold v3zero in X. injection X as -> -> ->. auto.
Qed.
Lemma solid_tr obs A B : solid obs -> solid A -> solid B -> m3det (mR (tr_2poses3d obs A B)) <> 0.
Proof.
  intros (Do & Bo & Co) (Da & Ba & Ca) (Db & Bb & Cb). unfold tr_2poses3d, se3_mul, se3_inv, m4mul. cbn [mR mt mb mc].
  assert (X : m3add (m3mul (m3add (m3mul (mR A) (mR obs)) (m3outer (mt A) (mb obs))) (m3tr (mR B))) (m3outer (v3add (m3app (mR A) (mt obs)) (v3scal (mc obs) (mt A))) v3zero) = m3mul (m3mul (mR A) (mR obs)) (m3tr (mR B))).
  { rewrite Bo. lin. }
  rewrite X, !m3det_mul, m3det_tr. repeat apply Rmult_integral_contrapositive_currified; auto.
Qed.
Lemma solid_exp X : solid (se3_exp X).
Proof.
  repeat split. cbn [se3_exp mR]. destruct (so3_exp_near_rotation (v6w (vee6 X))) as [_ D]. intros E. rewrite E in D.
  rewrite Rabs_left in D by lra. assert (/ 10 ^ 30 < 1); [|lra]. rewrite <- Rinv_1. apply Rinv_lt_contravar; [|apply Rlt_pow_R1; [lra|lia]]. rewrite Rmult_1_l. apply pow_lt. lra.
Qed.
Lemma solid_mul A B : solid A -> solid B -> solid (m4mul A B).
Proof.
  intros (Da & Ba & Ca) (Db & Bb & Cb). unfold m4mul. repeat split; cbn [mR mb mc].
  - rewrite Bb. replace (m3add (m3mul (mR A) (mR B)) (m3outer (mt A) v3zero)) with (m3mul (mR A) (mR B)) by lin. rewrite m3det_mul. apply Rmult_integral_contrapositive_currified; auto.
  - rewrite Ba, Bb. unfold m3appT. lin.
  - rewrite Ba, Ca, Cb. unfold v3dot, v3zero. cbn. ring.
Qed.

(** ** held factors: no increment of one node is unseen while the other stays *)
Lemma hold_pose2d obs x d : unseen (c_pose2d obs) [P2 x] [d] -> none_below 3 d.
Proof.
  intros U. pose proof (U 0%nat ltac:(cbn; lia)) as U0. pose proof (U 1%nat ltac:(cbn; lia)) as U1. pose proof (U 2%nat ltac:(cbn; lia)) as U2. cbn in U0, U1, U2.
  intros [|[|[|k]]] H; try lia; lra.
Qed.
Lemma hold_pose3d obs x d : unseen (c_pose3d obs) [P3 x] [d] -> none_below 6 d.
Proof.
  intros U. pose proof (U 0%nat ltac:(cbn; lia)) as U0. pose proof (U 1%nat ltac:(cbn; lia)) as U1. pose proof (U 2%nat ltac:(cbn; lia)) as U2. pose proof (U 3%nat ltac:(cbn; lia)) as U3. pose proof (U 4%nat ltac:(cbn; lia)) as U4. pose proof (U 5%nat ltac:(cbn; lia)) as U5.
  cbn in U0, U1, U2, U3, U4, U5. intros [|[|[|[|[|[|k]]]]]] H; try lia; lra.
Qed.
Lemma turn_zero th x y : cos th * x + sin th * y = 0 -> - sin th * x + cos th * y = 0 -> x = 0 /\ y = 0.
Proof.
  intros A B. pose proof (cs1 th) as T. set (c := cos th) in *. set (s := sin th) in *.
  assert (x = (c * c + s * s) * x) by (rewrite T; ring). assert (y = (c * c + s * s) * y) by (rewrite T; ring).
  split; [replace x with (c * (c * x + s * y) - s * (- s * x + c * y)) by lra | replace y with (s * (c * x + s * y) + c * (- s * x + c * y)) by lra]; rewrite A, B; ring.
Qed.
Lemma hold_2poses2d obs i o t d e : unseen (c_2poses2d obs i) [P2 o; P2 t] [d; e] -> (none_below 3 d -> none_below 3 e) /\ (none_below 3 e -> none_below 3 d).
Proof.
  intros U. pose proof (U 0%nat ltac:(cbn; lia)) as U0. pose proof (U 1%nat ltac:(cbn; lia)) as U1. pose proof (U 2%nat ltac:(cbn; lia)) as U2. cbn in U0, U1, U2.
  split; intros Z; pose proof (Z 0%nat ltac:(lia)) as Z0; pose proof (Z 1%nat ltac:(lia)) as Z1; pose proof (Z 2%nat ltac:(lia)) as Z2; rewrite Z0, Z1, Z2 in U0, U1, U2.
  - assert (E2 : e 2%nat = 0) by lra. rewrite E2 in U0, U1. destruct (turn_zero (vz o) (e 0%nat) (e 1%nat)) as [E0 E1]; [lra|lra|]. intros [|[|[|k]]] H; try lia; auto.
  - assert (E2 : d 2%nat = 0) by lra. rewrite E2 in U0, U1. destruct (turn_zero (vz o) (d 0%nat) (d 1%nat)) as [E0 E1]; [lra|lra|]. intros [|[|[|k]]] H; try lia; auto.
Qed.
Lemma hold_odom obs i o t d e : unseen (c_odom obs i) [P2 o; P2 t] [d; e] -> (none_below 3 d -> none_below 3 e) /\ (none_below 3 e -> none_below 3 d).
Proof.
  intros U. pose proof (U 0%nat ltac:(cbn; lia)) as U0. pose proof (U 1%nat ltac:(cbn; lia)) as U1. pose proof (U 2%nat ltac:(cbn; lia)) as U2. cbn in U0, U1, U2.
  split; intros Z; pose proof (Z 0%nat ltac:(lia)) as Z0; pose proof (Z 1%nat ltac:(lia)) as Z1; pose proof (Z 2%nat ltac:(lia)) as Z2; rewrite Z0, Z1, Z2 in U0, U1, U2.
  - intros [|[|[|k]]] H; try lia; lra.
  - assert (E2 : d 2%nat = 0) by lra. rewrite E2 in U0, U1. intros [|[|[|k]]] H; try lia; lra.
Qed.
Lemma jac_l_inj x a b u v : let J := snd (jac_landmark2d x a b) in
  lmat J 0 0 * u + lmat J 0 1 * v = 0 -> lmat J 1 0 * u + lmat J 1 1 * v = 0 -> u = 0 /\ v = 0.
Proof.
  unfold jac_landmark2d. cbv zeta. set (dx := a - vx x). set (dy := b - vy x). destruct (Rltb _ _) eqn:L; cbn [snd lmat nth].
  - intros A B. lra.
  - apply Rltb_niff in L. set (q := dx * dx + dy * dy) in *. assert (Q : 0 < q) by lra. assert (S : 0 < sqrt q) by (apply sqrt_lt_R0; auto). intros A B.
    assert (A' : dx * u + dy * v = 0). { apply (Rmult_eq_reg_r (/ sqrt q)); [|apply Rinv_neq_0_compat; lra]. rewrite Rmult_0_l, <- A. field. lra. }
    assert (B' : - dy * u + dx * v = 0). { apply (Rmult_eq_reg_r (/ q)); [|apply Rinv_neq_0_compat; lra]. rewrite Rmult_0_l, <- B. field. lra. }
    split; apply (Rmult_eq_reg_l q); try lra; unfold q.
    + replace ((dx * dx + dy * dy) * u) with (dx * (dx * u + dy * v) - dy * (- dy * u + dx * v)) by ring. rewrite A', B'. ring.
    + replace ((dx * dx + dy * dy) * v) with (dy * (dx * u + dy * v) + dx * (- dy * u + dx * v)) by ring. rewrite A', B'. ring.
Qed.
Lemma hold_landmark2d r b u x a c d e : unseen (c_landmark2d r b false u) [P2 x; L2 a c] [d; e] -> none_below 3 d -> none_below 2 e.
Proof.
  intros U Z. pose proof (U 0%nat ltac:(cbn; lia)) as U0. pose proof (U 1%nat ltac:(cbn; lia)) as U1. pose proof (Z 0%nat ltac:(lia)) as Z0; pose proof (Z 1%nat ltac:(lia)) as Z1; pose proof (Z 2%nat ltac:(lia)) as Z2.
  cbn [c_landmark2d fc_jac row_dir nval_dim sumn Nat.add] in U0, U1. rewrite Z0, Z1, Z2 in U0, U1.
  destruct (jac_l_inj x a c (e 0%nat) (e 1%nat)) as [E0 E1].
  - rewrite <- U0. unfold jac_landmark2d. destruct (Rltb _ _); cbn; ring.
  - rewrite <- U1. unfold jac_landmark2d. destruct (Rltb _ _); cbn; ring.
  - intros [|[|k]] H; try lia; auto.
Qed.
Lemma hold_landmark2d_rev r b u x a c d e : unseen (c_landmark2d r b true u) [L2 a c; P2 x] [e; d] -> none_below 3 d -> none_below 2 e.
Proof.
  intros U Z. pose proof (U 0%nat ltac:(cbn; lia)) as U0. pose proof (U 1%nat ltac:(cbn; lia)) as U1. pose proof (Z 0%nat ltac:(lia)) as Z0; pose proof (Z 1%nat ltac:(lia)) as Z1; pose proof (Z 2%nat ltac:(lia)) as Z2.
  cbn [c_landmark2d fc_jac row_dir nval_dim sumn Nat.add] in U0, U1. rewrite Z0, Z1, Z2 in U0, U1.
  destruct (jac_l_inj x a c (e 0%nat) (e 1%nat)) as [E0 E1].
  - rewrite <- U0. unfold jac_landmark2d. destruct (Rltb _ _); cbn; ring.
  - rewrite <- U1. unfold jac_landmark2d. destruct (Rltb _ _); cbn; ring.
  - intros [|[|k]] H; try lia; auto.
Qed.
Lemma hold_2poses3d obs i A B d e : solid obs -> solid A -> solid B -> unseen (c_2poses3d obs i) [P3 A; P3 B] [d; e] -> (none_below 6 d -> none_below 6 e) /\ (none_below 6 e -> none_below 6 d).
Proof.
  intros So SA SB U. pose proof (solid_tr obs A B So SA SB) as D. unfold unseen in U. cbn [c_2poses3d fc_jac fc_dim] in U. unfold jac_2poses3d in U. set (T := tr_2poses3d obs A B) in *. clearbody T.
  pose proof (U 0%nat ltac:(cbn; lia)) as U0. pose proof (U 1%nat ltac:(cbn; lia)) as U1. pose proof (U 2%nat ltac:(cbn; lia)) as U2. pose proof (U 3%nat ltac:(cbn; lia)) as U3. pose proof (U 4%nat ltac:(cbn; lia)) as U4. pose proof (U 5%nat ltac:(cbn; lia)) as U5. clear U.
  cbn in U0, U1, U2, U3, U4, U5.
  split; intros Z; pose proof (Z 0%nat ltac:(lia)) as Z0; pose proof (Z 1%nat ltac:(lia)) as Z1; pose proof (Z 2%nat ltac:(lia)) as Z2; pose proof (Z 3%nat ltac:(lia)) as Z3; pose proof (Z 4%nat ltac:(lia)) as Z4; pose proof (Z 5%nat ltac:(lia)) as Z5;
    rewrite Z0, Z1, Z2, Z3, Z4, Z5 in *; clear Z.
  - destruct (m3_inj_rows (mR T) (e 0%nat) (e 1%nat) (e 2%nat) D) as (E0 & E1 & E2); [lra|lra|lra|]. rewrite E0, E1, E2 in *.
    destruct (m3_inj_rows (mR T) (e 3%nat) (e 4%nat) (e 5%nat) D) as (E3 & E4 & E5); [lra|lra|lra|].
    intros [|[|[|[|[|[|k]]]]]] H; try lia; auto.
  - intros [|[|[|[|[|[|k]]]]]] H; try lia; lra.
Qed.
Lemma hold_landmark3d_block T l e : solid T -> (forall i, (i < 3)%nat -> lmat (snd (jac_landmark3d T l)) i 0 * e 0%nat + lmat (snd (jac_landmark3d T l)) i 1 * e 1%nat + lmat (snd (jac_landmark3d T l)) i 2 * e 2%nat = 0) -> none_below 3 e.
Proof.
  intros (D & _) U. pose proof (U 0%nat ltac:(lia)) as U0. pose proof (U 1%nat ltac:(lia)) as U1. pose proof (U 2%nat ltac:(lia)) as U2. cbn in U0, U1, U2.
  destruct (m3_inj_rows (m3tr (mR T)) (e 0%nat) (e 1%nat) (e 2%nat)) as (E0 & E1 & E2); try (cbn; lra). { rewrite m3det_tr. auto. }
  intros [|[|[|k]]] H; try lia; auto.
Qed.
Lemma hold_landmark3d obs T l d e : solid T -> unseen (c_landmark3d obs false) [P3 T; L3 l] [d; e] -> none_below 6 d -> none_below 3 e.
Proof.
  intros S U Z. apply (hold_landmark3d_block T l); auto. intros i Hi. specialize (U i Hi). pose proof (Z 0%nat ltac:(lia)) as Z0; pose proof (Z 1%nat ltac:(lia)) as Z1; pose proof (Z 2%nat ltac:(lia)) as Z2; pose proof (Z 3%nat ltac:(lia)) as Z3; pose proof (Z 4%nat ltac:(lia)) as Z4; pose proof (Z 5%nat ltac:(lia)) as Z5.
  rewrite <- U. destruct i as [|[|[|i]]]; try lia; cbn; rewrite Z0, Z1, Z2, Z3, Z4, Z5; ring.
Qed.
Lemma hold_landmark3d_rev obs T l d e : solid T -> unseen (c_landmark3d obs true) [L3 l; P3 T] [e; d] -> none_below 6 d -> none_below 3 e.
Proof.
  intros S U Z. apply (hold_landmark3d_block T l); auto. intros i Hi. specialize (U i Hi). pose proof (Z 0%nat ltac:(lia)) as Z0; pose proof (Z 1%nat ltac:(lia)) as Z1; pose proof (Z 2%nat ltac:(lia)) as Z2; pose proof (Z 3%nat ltac:(lia)) as Z3; pose proof (Z 4%nat ltac:(lia)) as Z4; pose proof (Z 5%nat ltac:(lia)) as Z5.
  rewrite <- U. destruct i as [|[|[|i]]]; try lia; cbn; rewrite Z0, Z1, Z2, Z3, Z4, Z5; ring.
Qed.
Lemma hold_plane_block T p e : solid T -> (forall i, (i < 4)%nat -> lmat (snd (jac_plane4d T p)) i 0 * e 0%nat + lmat (snd (jac_plane4d T p)) i 1 * e 1%nat + lmat (snd (jac_plane4d T p)) i 2 * e 2%nat + lmat (snd (jac_plane4d T p)) i 3 * e 3%nat = 0) -> none_below 4 e.
Proof.
  intros (D & B & C) U. pose proof (U 0%nat ltac:(lia)) as U0. pose proof (U 1%nat ltac:(lia)) as U1. pose proof (U 2%nat ltac:(lia)) as U2. pose proof (U 3%nat ltac:(lia)) as U3. cbn in U0, U1, U2, U3. rewrite B in U0, U1, U2. rewrite C in U3. cbn in U0, U1, U2.
  destruct (m3_inj_rows (m3tr (mR T)) (e 0%nat) (e 1%nat) (e 2%nat)) as (E0 & E1 & E2); try (cbn; lra). { rewrite m3det_tr. auto. }
  rewrite E0, E1, E2 in U3. intros [|[|[|[|k]]]] H; try lia; auto. lra.
Qed.
Lemma hold_plane obs T p d e : solid T -> unseen (c_plane4d obs false) [P3 T; PL p] [d; e] -> none_below 6 d -> none_below 4 e.
Proof.
  intros S U Z. apply (hold_plane_block T p); auto. intros i Hi. specialize (U i Hi). pose proof (Z 0%nat ltac:(lia)) as Z0; pose proof (Z 1%nat ltac:(lia)) as Z1; pose proof (Z 2%nat ltac:(lia)) as Z2; pose proof (Z 3%nat ltac:(lia)) as Z3; pose proof (Z 4%nat ltac:(lia)) as Z4; pose proof (Z 5%nat ltac:(lia)) as Z5.
  rewrite <- U. destruct i as [|[|[|[|i]]]]; try lia; cbn; rewrite Z0, Z1, Z2, Z3, Z4, Z5; ring.
Qed.
Lemma hold_plane_rev obs T p d e : solid T -> unseen (c_plane4d obs true) [PL p; P3 T] [e; d] -> none_below 6 d -> none_below 4 e.
Proof.
  intros S U Z. apply (hold_plane_block T p); auto. intros i Hi. specialize (U i Hi). pose proof (Z 0%nat ltac:(lia)) as Z0; pose proof (Z 1%nat ltac:(lia)) as Z1; pose proof (Z 2%nat ltac:(lia)) as Z2; pose proof (Z 3%nat ltac:(lia)) as Z3; pose proof (Z 4%nat ltac:(lia)) as Z4; pose proof (Z 5%nat ltac:(lia)) as Z5.
  rewrite <- U. destruct i as [|[|[|[|i]]]]; try lia; cbn; rewrite Z0, Z1, Z2, Z3, Z4, Z5; ring.
Qed.

(** ** rigid motions of the plane are unseen by relative factors *)
Lemma float_2poses2d obs i o t a b om : unseen (c_2poses2d obs i) [P2 o; P2 t] [swing a b om (P2 o); swing a b om (P2 t)].
Proof. intros [|[|[|k]]] H; cbn in H; try lia; cbn; ring. Qed.
Lemma float_odom obs i o t a b : unseen (c_odom obs i) [P2 o; P2 t] [swing a b 0 (P2 o); swing a b 0 (P2 t)].
Proof. intros [|[|[|k]]] H; cbn in H; try lia; cbn; ring. Qed.
Lemma float_landmark2d r b0 u x lx ly a b om : 1 / 1000000 <= (lx - vx x) * (lx - vx x) + (ly - vy x) * (ly - vy x) ->
  unseen (c_landmark2d r b0 false u) [P2 x; L2 lx ly] [swing a b om (P2 x); swing a b om (L2 lx ly)] /\ unseen (c_landmark2d r b0 true u) [L2 lx ly; P2 x] [swing a b om (L2 lx ly); swing a b om (P2 x)].
Proof.
  intros Q. set (dx := lx - vx x) in *. set (dy := ly - vy x) in *. set (q := dx * dx + dy * dy) in *. assert (L : Rltb q (1 / 1000000) = false) by (apply Rltb_niff; lra). assert (S : 0 < sqrt q) by (apply sqrt_lt_R0; lra).
  assert (Iq : / q * (dx * dx + dy * dy) = 1) by (fold q; field; lra). assert (Eq : q = dx * dx + dy * dy) by reflexivity. clearbody q.
  assert (Ex : lx = vx x + dx) by (unfold dx; ring). assert (Ey : ly = vy x + dy) by (unfold dy; ring).
  split; intros i Hi; cbn [c_landmark2d fc_jac fc_dim] in *; unfold jac_landmark2d; fold dx dy; cbv zeta; rewrite <- Eq, L; cbn [fst snd swing]; rewrite Ex, Ey; destruct i as [|[|i]]; try lia; cbn; unfold Rdiv; try ring.
  all: match goal with |- ?l = 0 => replace l with (om * (/ q * (dx * dx + dy * dy)) - om) by ring end; rewrite Iq; ring.
Qed.
