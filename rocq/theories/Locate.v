(** Located graphs have regular normal equations (C91). *)
Require Import Reals List Arith Lia Lra Psatz Bool.
From Verif Require Import Lin LinFacts SpecGeom SO3 SE3 SO3Exp SE3Alg AngleProofs Nodes Robust Graph Sums Solve SpecSolve SolveIndex SolveFrame SolveSums SolveBuild SolveProofs Session SessionProofs.
From Verif Require Import Factors SpecFactors FactorsDer FactorsSession SpecFrame FrameSolve SpecSolvable SolvableFactors SolvableSession FloatSession SpecLocate.
Import ListNotations.
Local Open Scope R_scope.

Lemma link_still rob cs w x : typed [] cs -> inv rob cs w -> firm w -> Forall solid_call cs -> Forall call_info cs -> rob <> RANSAC -> gn_form w x x = 0 -> forall i j, hangs cs i j -> still w x i -> still w x j.
Proof.
  intros T V Fi So P R Z i j Hh. pose proof (fun c I cl ids W => zero_form rob cs w x V P R Z c cl ids W I) as U.
  assert (K : forall i k, nth_error (fold_left kinds_after cs []) i = Some k -> kind_of (state_of w i) = k). { intros a k E. destruct (state_kind rob cs w a k V E) as (_ & _ & A & _). exact A. }
  assert (So' : forall obs i j W u, In (C2Poses3d obs i j W u) cs -> solid obs). { intros obs a b W u I. rewrite Forall_forall in So. exact (So _ I). }
  assert (Fs : forall i T, state_of w i = P3 T -> solid T) by (intros; eapply firm_state_of; eauto).
  unfold still. intros IH. destruct Hh as [obs i j W u I Po|obs i j W u I Po|obs i j W I Po|obs i j W I Po|obs i j W u I Po|obs i j W u I Po|r b i j W u I Po|obs i j W u I Po|obs i j W I Po];
    try (pose proof (typed_in cs _ [] T I) as Ty; cbn [typed1] in Ty).
  - destruct Ty as (_ & Ti & Tj). apply K in Ti. apply K in Tj. specialize (U _ I). unfold call_factor in U. cbn [pycall_op] in U. destruct (i <? j)%nat; specialize (U _ _ _ eq_refl Po); cbn [map] in U; destruct (state_of w i), (state_of w j); try discriminate; apply hold_2poses2d in U; apply U; auto.
  - destruct Ty as (_ & Ti & Tj). apply K in Ti. apply K in Tj. specialize (U _ I). unfold call_factor in U. cbn [pycall_op] in U. destruct (i <? j)%nat; specialize (U _ _ _ eq_refl Po); cbn [map] in U; destruct (state_of w i), (state_of w j); try discriminate; apply hold_2poses2d in U; apply U; auto.
  - destruct Ty as (_ & Ti & Tj). apply K in Ti. apply K in Tj. specialize (U _ I). unfold call_factor in U. cbn [pycall_op] in U. destruct (i <? j)%nat; specialize (U _ _ _ eq_refl Po); cbn [map] in U; destruct (state_of w i), (state_of w j); try discriminate; apply hold_odom in U; apply U; auto.
  - destruct Ty as (_ & Ti & Tj). apply K in Ti. apply K in Tj. specialize (U _ I). unfold call_factor in U. cbn [pycall_op] in U. destruct (i <? j)%nat; specialize (U _ _ _ eq_refl Po); cbn [map] in U; destruct (state_of w i), (state_of w j); try discriminate; apply hold_odom in U; apply U; auto.
  - destruct Ty as (_ & Ti & Tj). apply K in Ti. apply K in Tj. specialize (So' _ _ _ _ _ I). pose proof (Fs i) as Fa. pose proof (Fs j) as Fb. specialize (U _ I). unfold call_factor in U. cbn [pycall_op] in U. destruct (i <? j)%nat; specialize (U _ _ _ eq_refl Po); cbn [map] in U; destruct (state_of w i), (state_of w j); try discriminate; apply hold_2poses3d in U; auto; apply U; auto.
  - destruct Ty as (_ & Ti & Tj). apply K in Ti. apply K in Tj. specialize (So' _ _ _ _ _ I). pose proof (Fs i) as Fa. pose proof (Fs j) as Fb. specialize (U _ I). unfold call_factor in U. cbn [pycall_op] in U. destruct (i <? j)%nat; specialize (U _ _ _ eq_refl Po); cbn [map] in U; destruct (state_of w i), (state_of w j); try discriminate; apply hold_2poses3d in U; auto; apply U; auto.
  - destruct Ty as (Ti & Tj). apply K in Ti. apply K in Tj. specialize (U _ I). unfold call_factor in U. cbn [pycall_op] in U. destruct (i <? j)%nat; specialize (U _ _ _ eq_refl Po); cbn [map] in U; destruct (state_of w i), (state_of w j); try discriminate; [eapply hold_landmark2d; eauto | eapply hold_landmark2d_rev; eauto].
  - destruct Ty as (Ti & Tj). apply K in Ti. apply K in Tj. pose proof (Fs i) as Fa. specialize (U _ I). unfold call_factor in U. cbn [pycall_op] in U. destruct (i <? j)%nat; specialize (U _ _ _ eq_refl Po); cbn [map] in U; destruct (state_of w i), (state_of w j); try discriminate; [eapply hold_landmark3d; eauto | eapply hold_landmark3d_rev; eauto].
  - destruct Ty as (Ti & Tj). apply K in Ti. apply K in Tj. pose proof (Fs i) as Fa. specialize (U _ I). unfold call_factor in U. cbn [pycall_op] in U. destruct (i <? j)%nat; specialize (U _ _ _ eq_refl Po); cbn [map] in U; destruct (state_of w i), (state_of w j); try discriminate; [eapply hold_plane; eauto | eapply hold_plane_rev; eauto].
Qed.

(** ** a pose and a landmark or plane that stays *)
Lemma see_landmark2d_block p x y d : let J := fst (jac_landmark2d p x y) in
  lmat J 0 0 * d 0%nat + lmat J 0 1 * d 1%nat + lmat J 0 2 * d 2%nat = 0 -> lmat J 1 0 * d 0%nat + lmat J 1 1 * d 1%nat + lmat J 1 2 * d 2%nat = 0 ->
  (nearby p x y -> d 0%nat = 0 /\ d 1%nat = 0) /\ (~ nearby p x y -> d 0%nat = d 2%nat * (y - vy p) /\ d 1%nat = - d 2%nat * (x - vx p)).
Proof.
  unfold jac_landmark2d, nearby. cbv zeta. set (dx := x - vx p). set (dy := y - vy p). destruct (Rltb _ _) eqn:L; cbn [fst lmat nth].
  - apply Rltb_iff in L. intros A B. split; [intros _; lra|intros N; contradiction].
  - apply Rltb_niff in L. set (q := dx * dx + dy * dy) in *. assert (Q : 0 < q) by lra. assert (S : 0 < sqrt q) by (apply sqrt_lt_R0; auto). intros A B. split; [intros; lra|intros _].
    assert (A' : dx * d 0%nat + dy * d 1%nat = 0). { apply (Rmult_eq_reg_r (- / sqrt q)); [|apply Ropp_neq_0_compat, Rinv_neq_0_compat; lra]. rewrite Rmult_0_l, <- A. field. lra. }
    assert (B' : dy * d 0%nat - dx * d 1%nat = q * d 2%nat). { apply (Rmult_eq_reg_r (/ q)); [|apply Rinv_neq_0_compat; lra]. apply Rminus_diag_uniq. rewrite <- B. field. lra. }
    split; apply (Rmult_eq_reg_l q); try lra; unfold q at 1.
    + replace ((dx * dx + dy * dy) * d 0%nat) with (dx * (dx * d 0%nat + dy * d 1%nat) + dy * (dy * d 0%nat - dx * d 1%nat)) by ring. rewrite A', B'. ring.
    + replace ((dx * dx + dy * dy) * d 1%nat) with (dy * (dx * d 0%nat + dy * d 1%nat) - dx * (dy * d 0%nat - dx * d 1%nat)) by ring. rewrite A', B'. ring.
Qed.
Definition turned (p : V3) (x y : R) (d : nat -> R) : Prop :=
  (nearby p x y -> d 0%nat = 0 /\ d 1%nat = 0) /\ (~ nearby p x y -> d 0%nat = d 2%nat * (y - vy p) /\ d 1%nat = - d 2%nat * (x - vx p)).
Lemma see_landmark2d r b u p x y d e : unseen (c_landmark2d r b false u) [P2 p; L2 x y] [d; e] -> none_below 2 e -> turned p x y d.
Proof.
  intros U Z. pose proof (U 0%nat ltac:(cbn; lia)) as U0. pose proof (U 1%nat ltac:(cbn; lia)) as U1. pose proof (Z 0%nat ltac:(lia)) as Z0; pose proof (Z 1%nat ltac:(lia)) as Z1.
  cbn [c_landmark2d fc_jac row_dir nval_dim sumn Nat.add] in U0, U1. rewrite Z0, Z1 in U0, U1. apply see_landmark2d_block.
  - rewrite <- U0. unfold jac_landmark2d. destruct (Rltb _ _); cbn; ring.
  - rewrite <- U1. unfold jac_landmark2d. destruct (Rltb _ _); cbn; ring.
Qed.
Lemma see_landmark2d_rev r b u p x y d e : unseen (c_landmark2d r b true u) [L2 x y; P2 p] [e; d] -> none_below 2 e -> turned p x y d.
Proof.
  intros U Z. pose proof (U 0%nat ltac:(cbn; lia)) as U0. pose proof (U 1%nat ltac:(cbn; lia)) as U1. pose proof (Z 0%nat ltac:(lia)) as Z0; pose proof (Z 1%nat ltac:(lia)) as Z1.
  cbn [c_landmark2d fc_jac row_dir nval_dim sumn Nat.add] in U0, U1. rewrite Z0, Z1 in U0, U1. apply see_landmark2d_block.
  - rewrite <- U0. unfold jac_landmark2d. destruct (Rltb _ _); cbn; ring.
  - rewrite <- U1. unfold jac_landmark2d. destruct (Rltb _ _); cbn; ring.
Qed.
Lemma two_landmarks p x y x' y' d : turned p x y d -> turned p x' y' d -> (x, y) <> (x', y') -> ~ (nearby p x y /\ nearby p x' y') -> none_below 3 d.
Proof.
  intros [A B] [A' B'] N F. assert (D : d 0%nat = 0 /\ d 1%nat = 0 /\ d 2%nat = 0).
  { assert (C : forall x y, ~ nearby p x y -> d 0%nat = 0 -> d 1%nat = 0 -> d 0%nat = d 2%nat * (y - vy p) -> d 1%nat = - d 2%nat * (x - vx p) -> d 2%nat = 0).
    { intros a b Q Z0 Z1 E0 E1. unfold nearby in Q. destruct (Req_dec (d 2%nat) 0) as [H|H]; auto. exfalso. apply Q. rewrite Z0 in E0. rewrite Z1 in E1.
      assert (b - vy p = 0) by (symmetry in E0; apply Rmult_integral in E0; destruct E0; [contradiction|auto]). assert (a - vx p = 0) by (symmetry in E1; apply Rmult_integral in E1; destruct E1; [lra|auto]). rewrite H0, H1. lra. }
    assert (X : forall a b, nearby p a b \/ ~ nearby p a b) by (intros; unfold nearby; lra).
    destruct (X x y) as [n|n], (X x' y') as [n'|n'].
    - exfalso. auto.
    - destruct (A n), (B' n'). repeat split; auto. eapply (C x' y'); eauto.
    - destruct (A' n'), (B n). repeat split; auto. eapply (C x y); eauto.
    - destruct (B n) as [E0 E1], (B' n') as [E0' E1']. assert (Z : d 2%nat = 0).
      { destruct (Req_dec (d 2%nat) 0) as [H|H]; auto. exfalso. apply N. f_equal; apply (Rmult_eq_reg_l (d 2%nat)); auto; lra. }
      rewrite Z in E0, E1. repeat split; auto; lra. }
  destruct D as (D0 & D1 & D2). intros [|[|[|k]]] H; auto. lia.
Qed.
(** the twist in an increment of a pose *)
Definition ang (d : nat -> R) : V3 := mkV3 (d 0%nat) (d 1%nat) (d 2%nat).
Definition vel (d : nat -> R) : V3 := mkV3 (d 3%nat) (d 4%nat) (d 5%nat).
Lemma v3_eq a b : vx a = vx b -> vy a = vy b -> vz a = vz b -> a = b.
Proof. destruct a, b. cbn. intros -> -> ->. reflexivity. Qed.
Lemma landmark3d_row T l d i : (i < 3)%nat -> sumn 6 (fun k => lmat (fst (jac_landmark3d T l)) i k * d k) = - lvec (l3 (m3app (m3tr (mR T)) (v3add (v3cross (ang d) l) (vel d)))) i.
Proof. intros H. destruct i as [|[|[|i]]]; try lia; cbn; ring. Qed.
Lemma landmark3d_kept T l d : keeps_point (ang d) (vel d) l -> forall i, (i < 3)%nat -> sumn 6 (fun k => lmat (fst (jac_landmark3d T l)) i k * d k) = 0.
Proof. intros K i Hi. rewrite landmark3d_row by auto. unfold keeps_point in K. rewrite K. destruct i as [|[|[|i]]]; try lia; cbn; ring. Qed.
Lemma landmark3d_keeps T l d : solid T -> (forall i, (i < 3)%nat -> sumn 6 (fun k => lmat (fst (jac_landmark3d T l)) i k * d k) = 0) -> keeps_point (ang d) (vel d) l.
Proof.
  intros (D & _) U. apply (m3_inj (m3tr (mR T))). { rewrite m3det_tr. auto. }
  pose proof (U 0%nat ltac:(lia)) as U0. pose proof (U 1%nat ltac:(lia)) as U1. pose proof (U 2%nat ltac:(lia)) as U2. rewrite landmark3d_row in U0, U1, U2 by lia.
  set (q := m3app _ _) in *. clearbody q. cbn in U0, U1, U2. apply v3_eq; cbn [v3zero vx vy vz]; lra.
Qed.
Lemma plane_row T p d i : solid T -> (i < 4)%nat -> sumn 6 (fun k => lmat (fst (jac_plane4d T p)) i k * d k) =
  nth i (l3 (m3app (m3tr (mR T)) (v3opp (v3cross (ang d) (v4h p)))) ++ [v3dot (v3opp (v3cross (ang d) (v4h p))) (mt T) + v3dot (v4h p) (vel d)]) 0.
Proof. intros (_ & B & C) H. destruct i as [|[|[|[|i]]]]; try lia; cbn; rewrite ?B, ?C; unfold v3zero; cbn; unfold v3dot; cbn; ring. Qed.
Lemma plane_kept T p d : solid T -> keeps_plane (ang d) (vel d) (v4h p) -> forall i, (i < 4)%nat -> sumn 6 (fun k => lmat (fst (jac_plane4d T p)) i k * d k) = 0.
Proof. intros S [K L] i Hi. rewrite plane_row by auto. rewrite K, L. destruct i as [|[|[|[|i]]]]; try lia; cbn; unfold v3dot; cbn; ring. Qed.
Lemma plane_keeps T p d : solid T -> (forall i, (i < 4)%nat -> sumn 6 (fun k => lmat (fst (jac_plane4d T p)) i k * d k) = 0) -> keeps_plane (ang d) (vel d) (v4h p).
Proof.
  intros S U. pose proof (U 0%nat ltac:(lia)) as U0. pose proof (U 1%nat ltac:(lia)) as U1. pose proof (U 2%nat ltac:(lia)) as U2. pose proof (U 3%nat ltac:(lia)) as U3. rewrite plane_row in U0, U1, U2, U3 by (auto; lia).
  assert (X : v3opp (v3cross (ang d) (v4h p)) = v3zero).
  { apply (m3_inj (m3tr (mR T))). { rewrite m3det_tr. apply S. } set (q := m3app _ _) in *. clearbody q. cbn in U0, U1, U2. apply v3_eq; cbn [v3zero vx vy vz]; lra. }
  rewrite X in U3. split.
  - set (q := v3cross _ _) in *. clearbody q. destruct q as [a b c]. unfold v3opp, v3zero in X. cbn in X. injection X as X1 X2 X3. unfold v3zero. f_equal; lra.
  - cbn in U3. unfold v3dot at 1 in U3. cbn in U3. lra.
Qed.
Lemma point_row zx n T d : sumn 6 (fun k => lmat (jac_point2plane zx n T) 0 k * d k) = v3dot n (v3add (v3cross (ang d) (se3_transform T zx)) (vel d)).
Proof. unfold jac_point2plane. generalize (se3_transform T zx). intros q. cbn. unfold v3dot. cbn. ring. Qed.

(** what the classes say about an increment of the pose alone *)
Lemma fst_landmark3d T l d e i : (i < 3)%nat -> (forall k, (k < 3)%nat -> e k = 0) -> forall obs,
  row_dir (fc_jac (c_landmark3d obs false) [P3 T; L3 l] i) 0 [P3 T; L3 l] [d; e] = sumn 6 (fun k => lmat (fst (jac_landmark3d T l)) i k * d k) /\
  row_dir (fc_jac (c_landmark3d obs true) [L3 l; P3 T] i) 0 [L3 l; P3 T] [e; d] = sumn 6 (fun k => lmat (fst (jac_landmark3d T l)) i k * d k).
Proof.
  intros Hi Z obs. pose proof (Z 0%nat ltac:(lia)) as Z0; pose proof (Z 1%nat ltac:(lia)) as Z1; pose proof (Z 2%nat ltac:(lia)) as Z2. destruct i as [|[|[|i]]]; try lia; split; cbn; rewrite Z0, Z1, Z2; ring.
Qed.
Lemma fst_plane T p d e i : (i < 4)%nat -> (forall k, (k < 4)%nat -> e k = 0) -> forall obs,
  row_dir (fc_jac (c_plane4d obs false) [P3 T; PL p] i) 0 [P3 T; PL p] [d; e] = sumn 6 (fun k => lmat (fst (jac_plane4d T p)) i k * d k) /\
  row_dir (fc_jac (c_plane4d obs true) [PL p; P3 T] i) 0 [PL p; P3 T] [e; d] = sumn 6 (fun k => lmat (fst (jac_plane4d T p)) i k * d k).
Proof.
  intros Hi Z obs. pose proof (Z 0%nat ltac:(lia)) as Z0; pose proof (Z 1%nat ltac:(lia)) as Z1; pose proof (Z 2%nat ltac:(lia)) as Z2; pose proof (Z 3%nat ltac:(lia)) as Z3. destruct i as [|[|[|[|i]]]]; try lia; split; cbn; rewrite Z0, Z1, Z2, Z3; ring.
Qed.
Lemma none_ang d : ang d = v3zero -> vel d = v3zero -> none_below 6 d.
Proof. unfold ang, vel, v3zero. intros A B. injection A as A0 A1 A2. injection B as B0 B1 B2. intros [|[|[|[|[|[|k]]]]]] H; auto; lia. Qed.
Lemma located_still rob cs w x : typed [] cs -> inv rob cs w -> firm w -> Forall solid_call cs -> Forall call_info cs -> rob <> RANSAC -> gn_form w x x = 0 -> forall i, located cs (state_of w) i -> still w x i.
Proof.
  intros T V Fi So P R Z i Hl. pose proof (fun c I cl ids W => zero_form rob cs w x V P R Z c cl ids W I) as U.
  assert (K : forall i k, nth_error (fold_left kinds_after cs []) i = Some k -> kind_of (state_of w i) = k). { intros a k E. destruct (state_kind rob cs w a k V E) as (_ & _ & A & _). exact A. }
  induction Hl as [i Hh|i j Hh _ IH|r b r' b' i j k W W' u u' p a c a' c' I Po _ IH I' Po' _ IH' Si Sj Sk N F|fs i A Si Hc _ IH Hn].
  - exact (held_still rob cs w x T V Fi So P R Z i Hh).
  - exact (link_still rob cs w x T V Fi So P R Z i j Hh IH).
  - unfold still in *. rewrite Si. rewrite Sj in IH. rewrite Sk in IH'. cbn [nval_dim] in *. apply (two_landmarks p a c a' c'); auto.
    + specialize (U _ I). unfold call_factor in U. cbn [pycall_op] in U. destruct (i <? j)%nat; specialize (U _ _ _ eq_refl Po); cbn [map] in U; rewrite Si, Sj in U; [eapply see_landmark2d; eauto|eapply see_landmark2d_rev; eauto].
    + specialize (U _ I'). unfold call_factor in U. cbn [pycall_op] in U. destruct (i <? k)%nat; specialize (U _ _ _ eq_refl Po'); cbn [map] in U; rewrite Si, Sk in U; [eapply see_landmark2d; eauto|eapply see_landmark2d_rev; eauto].
  - unfold still. rewrite Si. cbn [nval_dim]. assert (SA : solid A) by (eapply firm_state_of; eauto). set (d := inc_of w x i) in *.
    destruct (Hn (ang d) (vel d)) as [E E']; [|apply none_ang; auto]. intros c Ic. destruct (Hc c Ic) as [Ics Po]. unfold certain in Po. specialize (IH c). specialize (U c Ics). pose proof (typed_in cs _ [] T Ics) as Ty.
    destruct c as [ | | | | | |obs p j W u| |obs p j W|zx zy n p W| | ]; auto; cbn [typed1] in Ty.
    + intros ->. destruct Ty as [_ Tj]. apply K in Tj. specialize (IH j Ic eq_refl). unfold still in IH. unfold call_factor in U, Po. cbn [pycall_op] in U, Po.
      destruct (i <? j)%nat; specialize (U _ _ _ eq_refl Po); cbn [map] in U; rewrite Si in U; destruct (state_of w j) as [t|t|t t'|t|t]; try discriminate; cbn [point_of nval_dim] in *; apply (landmark3d_keeps A); auto; intros q Hq; destruct (fst_landmark3d A t d (inc_of w x j) q Hq IH obs) as [X Y]; [rewrite <- X|rewrite <- Y]; exact (U q Hq).
    + intros ->. destruct Ty as [_ Tj]. apply K in Tj. specialize (IH j Ic eq_refl). unfold still in IH. unfold call_factor in U, Po. cbn [pycall_op] in U, Po.
      destruct (i <? j)%nat; specialize (U _ _ _ eq_refl Po); cbn [map] in U; rewrite Si in U; destruct (state_of w j) as [t|t|t t'|t|t]; try discriminate; cbn [normal_of nval_dim] in *; apply (plane_keeps A); auto; intros q Hq; destruct (fst_plane A t d (inc_of w x j) q Hq IH obs) as [X Y]; [rewrite <- X|rewrite <- Y]; exact (U q Hq).
    + intros ->. specialize (U _ _ _ eq_refl Po 0%nat ltac:(cbn; lia)). cbn [map] in U. rewrite Si in *. cbn [pose_of]. unfold slides. rewrite <- point_row. rewrite <- U. cbn [c_point2plane fc_jac row_dir nval_dim Nat.add]. fold d. ring.
Qed.
Lemma located_regular rob cs s b : typed [] cs -> inv rob cs (s_w s) -> firm (s_w s) -> Forall solid_call cs -> Forall call_info cs -> rob <> RANSAC ->
  (forall i, (i < length (nodes_of cs))%nat -> located cs (state_of (s_w s)) i) -> build_problem false s = Some b -> nonsingular (g_stateDim (w_graph (s_w s))) (s_L b).
Proof.
  intros T V Fi So P R Hd. pose proof (gd_wf _ (iv_good _ _ _ V)) as Wf. apply gn_regular; auto. intros x Z. apply (same_incr (s_w s) x (fun _ => 0) Wf). intros m l k Hm Hk.
  destruct (active_id rob cs _ m l V Hm) as (i & Gi & Li). pose proof (located_still rob cs (s_w s) x T V Fi So P R Z i (Hd i Li)) as St. unfold still, inc_of in St. rewrite Gi in St. rewrite St.
  - unfold increments. destruct (is_anchor _); reflexivity.
  - unfold ndim in Hk. unfold state_of. rewrite Gi. destruct (gd_ids _ (iv_good _ _ _ V) i l Gi) as [L _]. destruct (gd_kind _ (iv_good _ _ _ V) l L) as [<- _]. exact Hk.
Qed.

(** ** poses whose observations leave a motion unnoticed *)
Definition twist (om v : V3) (k : nat) : R := nth k [vx om; vy om; vz om; vx v; vy v; vz v] 0.
Lemma twist_ang om v : ang (twist om v) = om. Proof. destruct om. reflexivity. Qed.
Lemma twist_vel om v : vel (twist om v) = v. Proof. destruct v. reflexivity. Qed.
Lemma nonzero_at om v : om <> v3zero \/ v <> v3zero -> exists k, (k < 6)%nat /\ twist om v k <> 0.
Proof.
  intros H. destruct (Req_dec (vx om) 0); [|exists 0%nat; split; auto; lia]. destruct (Req_dec (vy om) 0); [|exists 1%nat; split; auto; lia]. destruct (Req_dec (vz om) 0); [|exists 2%nat; split; auto; lia].
  destruct (Req_dec (vx v) 0); [|exists 3%nat; split; auto; lia]. destruct (Req_dec (vy v) 0); [|exists 4%nat; split; auto; lia]. destruct (Req_dec (vz v) 0); [|exists 5%nat; split; auto; lia].
  exfalso. destruct H as [H|H]; apply H; apply v3_eq; auto.
Qed.
Lemma ambiguous_singular rob cs s b u i v0 om v : typed [] cs -> inv rob cs (s_w s) -> firm (s_w s) -> nth_error (nodes_of cs) i = Some (STANDARD, v0) -> kind_of v0 = KP3 ->
  only_observes cs i -> unnoticed cs (state_of (s_w s)) i om v -> om <> v3zero \/ v <> v3zero -> build_problem u s = Some b -> ~ nonsingular (g_stateDim (w_graph (s_w s))) (s_L b).
Proof.
  intros T V Fi Hn Kv Ob Un Nz Q. destruct (node_std rob cs _ i v0 V Hn) as (l & G & _ & K). rewrite Kv in K. destruct (state_of (s_w s) i) as [ |A| | |] eqn:Si; try discriminate.
  assert (SA : solid A) by (eapply firm_state_of; eauto). destruct (nonzero_at om v Nz) as (k & Hk & Ne).
  apply (unseen_singular rob cs s b u (only i (twist om v)) i k l V (only_anchor rob cs _ i v0 _ V Hn)); auto.
  - intros c cl ids W Ic Fc. destruct (in_dec Nat.eq_dec i ids) as [Ii|Ni]; [|apply only_unseen; auto]. specialize (Un c Ic). pose proof (Ob c cl ids W Ic Fc Ii) as M. pose proof (typed_in cs _ [] T Ic) as Ty.
    assert (Oi : only i (twist om v) i = twist om v) by (unfold only; rewrite Nat.eqb_refl; reflexivity).
    destruct c as [ | | | | | |obs p j W' u'| |obs p j W'|zx zy n p W'| | ]; try contradiction; subst p; specialize (Un eq_refl); cbn [typed1] in Ty; unfold call_factor in Fc; cbn [pycall_op] in Fc.
    + destruct Ty as [Ti Tj]. destruct (state_kind rob cs _ j _ V Tj) as (_ & _ & Kj & _). destruct (state_of (s_w s) j) as [t|t|t t'|t|t] eqn:Sj; try discriminate.
      assert (Nij : j <> i) by (intros ->; congruence). assert (Oj : only i (twist om v) j = fun _ => 0) by (unfold only; destruct (Nat.eqb_spec j i); [contradiction|reflexivity]).
      cbn [point_of] in Un. rewrite <- (twist_ang om v), <- (twist_vel om v) in Un. pose proof (landmark3d_kept A t (twist om v)) as Kp. rewrite twist_ang, twist_vel in *. specialize (Kp Un).
      destruct (i <? j)%nat; injection Fc as <- <- <-; cbn [map]; rewrite Si, Sj, Oi, Oj; intros q Hq; destruct (fst_landmark3d A t (twist om v) (fun _ => 0) q Hq (fun _ _ => eq_refl) obs) as [X Y]; [rewrite X|rewrite Y]; auto.
    + destruct Ty as [Ti Tj]. destruct (state_kind rob cs _ j _ V Tj) as (_ & _ & Kj & _). destruct (state_of (s_w s) j) as [t|t|t t'|t|t] eqn:Sj; try discriminate.
      assert (Nij : j <> i) by (intros ->; congruence). assert (Oj : only i (twist om v) j = fun _ => 0) by (unfold only; destruct (Nat.eqb_spec j i); [contradiction|reflexivity]).
      cbn [normal_of] in Un. pose proof (plane_kept A t (twist om v) SA) as Kp. rewrite twist_ang, twist_vel in Kp. specialize (Kp Un).
      destruct (i <? j)%nat; injection Fc as <- <- <-; cbn [map]; rewrite Si, Sj, Oi, Oj; intros q Hq; destruct (fst_plane A t (twist om v) (fun _ => 0) q Hq (fun _ _ => eq_refl) obs) as [X Y]; [rewrite X|rewrite Y]; auto.
    + injection Fc as <- <- <-. cbn [map]. rewrite Si, Oi in *. intros [|q] Hq; [|cbn in Hq; lia]. cbn [c_point2plane fc_jac row_dir nval_dim Nat.add]. rewrite point_row, twist_ang, twist_vel. cbn [pose_of] in Un. unfold slides in Un. rewrite Un. ring.
  - rewrite Si. cbn. exact Hk.
  - unfold only. rewrite Nat.eqb_refl. exact Ne.
Qed.

(** ** geometry *)
Lemma norm2_pos c : c <> v3zero -> v3dot c c <> 0.
Proof. intros N E. apply N. destruct c as [a b c]. unfold v3dot in E. cbn in E. unfold v3zero. f_equal; nra. Qed.
Lemma scal_zero k a : k <> 0 -> v3scal k a = v3zero -> a = v3zero.
Proof.
  intros K E. destruct a as [x y z]. unfold v3scal, v3zero in *. cbn in E. injection E as E1 E2 E3.
  apply Rmult_integral in E1, E2, E3. f_equal; tauto.
Qed.
Lemma cross_parallel om a b : v3cross om a = v3zero -> v3cross om b = v3zero -> v3cross a b <> v3zero -> om = v3zero.
Proof.
  intros A B N. apply (scal_zero (v3dot (v3cross a b) (v3cross a b))). { apply norm2_pos; auto. }
  transitivity (v3add (v3scal (v3dot (v3cross om b) (v3cross a b)) a) (v3add (v3scal (- v3dot (v3cross om a) (v3cross a b)) b) (v3scal (v3dot (v3cross om a) b) (v3cross a b)))).
  - destruct om, a, b. unfold v3scal, v3add, v3dot, v3cross. cbn. f_equal; ring.
  - rewrite A, B. unfold v3scal, v3add, v3dot, v3cross, v3zero. cbn. f_equal; ring.
Qed.
Lemma keeps_diff om v a b : keeps_point om v a -> keeps_point om v b -> v3cross om (v3sub b a) = v3zero.
Proof.
  unfold keeps_point. intros A B. transitivity (v3sub (v3add (v3cross om b) v) (v3add (v3cross om a) v)).
  - destruct om, v, a, b. unfold v3sub, v3add, v3cross. cbn. f_equal; ring.
  - rewrite A, B. unfold v3sub, v3zero. cbn. f_equal; ring.
Qed.
Lemma keeps_still om v a : om = v3zero -> keeps_point om v a -> v = v3zero.
Proof. unfold keeps_point. intros -> E. rewrite <- E. destruct v, a. unfold v3add, v3cross, v3zero. cbn. f_equal; ring. Qed.
Lemma three_points om v a b c : keeps_point om v a -> keeps_point om v b -> keeps_point om v c -> ~ collinear a b c -> om = v3zero /\ v = v3zero.
Proof.
  intros A B C N. assert (Z : om = v3zero) by (apply (cross_parallel om (v3sub b a) (v3sub c a)); auto; eapply keeps_diff; eauto). split; auto. eapply keeps_still; eauto.
Qed.
Lemma dots_zero v a b c : v3dot a v = 0 -> v3dot b v = 0 -> v3dot c v = 0 -> independent a b c -> v = v3zero.
Proof.
  intros A B C N. unfold independent in N. apply (scal_zero (v3dot (v3cross a b) c)); auto.
  transitivity (v3add (v3scal (v3dot a v) (v3cross b c)) (v3add (v3scal (v3dot b v) (v3cross c a)) (v3scal (v3dot c v) (v3cross a b)))).
  - destruct v, a, b, c. unfold v3scal, v3add, v3dot, v3cross. cbn. f_equal; ring.
  - rewrite A, B, C. unfold v3scal, v3add, v3dot, v3cross, v3zero. cbn. f_equal; ring.
Qed.
Lemma independent_cross a b c : independent a b c -> v3cross a b <> v3zero.
Proof. intros N E. apply N. rewrite E. unfold v3dot, v3zero. cbn. ring. Qed.
Lemma three_planes om v a b c : keeps_plane om v a -> keeps_plane om v b -> keeps_plane om v c -> independent a b c -> om = v3zero /\ v = v3zero.
Proof.
  intros [A A'] [B B'] [C C'] N. split; [apply (cross_parallel om a b); auto; eapply independent_cross; eauto|]. apply (dots_zero v a b c); auto.
Qed.
Lemma point_planes om v q a b : keeps_point om v q -> keeps_plane om v a -> keeps_plane om v b -> v3cross a b <> v3zero -> om = v3zero /\ v = v3zero.
Proof. intros Q [A A'] [B B'] N. assert (Z : om = v3zero) by (apply (cross_parallel om a b); auto). split; auto. eapply keeps_still; eauto. Qed.
(** poses that place three points alike *)
Lemma same_place R R' t t' a b c : rotation R -> rotation R' -> v3add (m3app R a) t = v3add (m3app R' a) t' -> v3add (m3app R b) t = v3add (m3app R' b) t' -> v3add (m3app R c) t = v3add (m3app R' c) t' ->
  ~ collinear a b c -> R = R' /\ t = t'.
Proof.
  intros HR HR' A B C N. set (x := v3sub b a) in *. set (y := v3sub c a) in *.
  assert (X : m3app R x = m3app R' x). { transitivity (v3sub (v3add (m3app R b) t) (v3add (m3app R a) t)); [|rewrite A, B]; unfold x; lina. }
  assert (Y : m3app R y = m3app R' y). { transitivity (v3sub (v3add (m3app R c) t) (v3add (m3app R a) t)); [|rewrite A, C]; unfold y; lina. }
  assert (Z : m3app R (v3cross x y) = m3app R' (v3cross x y)) by (rewrite !cross_rot, X, Y; auto).
  assert (D : m3det (mkM3 (vx x) (vy x) (vz x) (vx y) (vy y) (vz y) (vx (v3cross x y)) (vy (v3cross x y)) (vz (v3cross x y))) <> 0).
  { replace (m3det _) with (v3dot (v3cross x y) (v3cross x y)) by (clearbody x y; destruct x, y; unfold m3det, v3dot, v3cross; cbn; ring). apply norm2_pos. exact N. }
  set (z := v3cross x y) in *. clearbody x y z.
  assert (E : R = R').
  { destruct R as [r00 r01 r02 r10 r11 r12 r20 r21 r22], R' as [s00 s01 s02 s10 s11 s12 s20 s21 s22]. unfold m3app in X, Y, Z. cbn in X, Y, Z. injection X as X0 X1 X2. injection Y as Y0 Y1 Y2. injection Z as Z0 Z1 Z2.
    destruct (m3_inj_rows _ (r00 - s00) (r01 - s01) (r02 - s02) D) as (? & ? & ?); [cbn; lra|cbn; lra|cbn; lra|].
    destruct (m3_inj_rows _ (r10 - s10) (r11 - s11) (r12 - s12) D) as (? & ? & ?); [cbn; lra|cbn; lra|cbn; lra|].
    destruct (m3_inj_rows _ (r20 - s20) (r21 - s21) (r22 - s22) D) as (? & ? & ?); [cbn; lra|cbn; lra|cbn; lra|]. f_equal; lra. }
  split; auto. subst R'. destruct t as [t0 t1 t2], t' as [u0 u1 u2]. unfold v3add in A. cbn in A. injection A as A0 A1 A2. f_equal; lra.
Qed.
(** planar poses that place two points alike *)
Lemma same_place2 px py th px' py' th' r b r' b' : px + r * cos (th + b) = px' + r * cos (th' + b) -> py + r * sin (th + b) = py' + r * sin (th' + b) ->
  px + r' * cos (th + b') = px' + r' * cos (th' + b') -> py + r' * sin (th + b') = py' + r' * sin (th' + b') ->
  (px + r * cos (th + b), py + r * sin (th + b)) <> (px + r' * cos (th + b'), py + r' * sin (th + b')) -> px = px' /\ py = py' /\ same_heading th th'.
Proof.
  intros A B C D N. rewrite !cos_plus, !sin_plus in *. set (u := r * cos b - r' * cos b'). set (v := r * sin b - r' * sin b').
  set (c := cos th) in *. set (s := sin th) in *. set (c' := cos th') in *. set (s' := sin th') in *.
  assert (E : (c - c') * u - (s - s') * v = 0) by (unfold u, v; lra). assert (F : (s - s') * u + (c - c') * v = 0) by (unfold u, v; lra).
  assert (G : u * u + v * v <> 0).
  { intros G. assert (u = 0) by nra. assert (v = 0) by nra. apply N. clear - H H0. unfold u, v in *. f_equal.
    - replace (px + r * (c * cos b - s * sin b)) with (px + r' * (c * cos b' - s * sin b') + c * (r * cos b - r' * cos b') - s * (r * sin b - r' * sin b')) by ring. rewrite H, H0. ring.
    - replace (py + r * (s * cos b + c * sin b)) with (py + r' * (s * cos b' + c * sin b') + s * (r * cos b - r' * cos b') + c * (r * sin b - r' * sin b')) by ring. rewrite H, H0. ring. }
  assert (Ec : c = c'). { apply Rminus_diag_uniq. apply (Rmult_eq_reg_r (u * u + v * v)); auto. transitivity (u * ((c - c') * u - (s - s') * v) + v * ((s - s') * u + (c - c') * v)); [ring|rewrite E, F; ring]. }
  assert (Es : s = s'). { apply Rminus_diag_uniq. apply (Rmult_eq_reg_r (u * u + v * v)); auto. transitivity (u * ((s - s') * u + (c - c') * v) - v * ((c - c') * u - (s - s') * v)); [ring|rewrite E, F; ring]. }
  rewrite Ec, Es in A, B. split; [lra|]. split; [lra|]. apply cos_sin_same; auto.
Qed.
