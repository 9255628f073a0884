(** Gauss-Newton on planar pose graphs without loops (C86). *)
Require Import Reals List Arith Lia Lra Bool.
From Verif Require Import Lin SO3 LinFacts SpecGeom Angle AngleProofs Nodes Robust Graph GraphProofs Sums Solve SpecSolve SolveIndex SolveFrame SolveSums SolveBuild SolveProofs Session SessionProofs.
From Verif Require Import Factors SpecFactors FactorsSession SpecFrame FrameFactors FrameSolve SpecSolvable SpecMapping SolvableSession DenseProofs MappingSession LMMapping SpecReorder Reorder ReorderSolve SpecFixed Fixed SpecTree.
Import ListNotations.
Local Open Scope R_scope.
Local Arguments nd : simpl never.
Local Arguments fa : simpl never.

(** ** velocities that meet all linearised measurements *)
Definition lin_zero (st : nat -> nval) (D : nat -> nat -> R) (c : pycall) : Prop :=
  match call_factor c with Some (cl, ids, _) => forall i, (i < fc_dim cl)%nat -> f_jd st D cl ids i = fc_res cl (map st ids) i | None => True end.
Section Dirs.
Variable st : nat -> nval.
Definition planar (i : nat) : Prop := exists x, st i = P2 x.
Definition planar_call (c : pycall) : Prop :=
  match c with CPose2d _ i _ => planar i | C2Poses2d _ i k _ _ | COdom2d _ i k _ => planar i /\ planar k | _ => False end.
Ltac rows := cbn; try ring.
Lemma jd_pose2d obs D a x i : st a = P2 x -> (i < 3)%nat -> f_jd st D (c_pose2d obs) [a] i = D a i.
Proof. intros E Hi. unfold f_jd. cbn [map]. rewrite E. destruct i as [|[|[|i]]]; [| | |lia]; rows. Qed.
Lemma jd_rel obs u D a b o t : st a = P2 o -> st b = P2 t ->
  f_jd st D (c_2poses2d obs u) [a; b] 0 = cos (vz o) * (D b 0%nat - D a 0%nat) + sin (vz o) * (D b 1%nat - D a 1%nat) + (- sin (vz o) * (vx t - vx o) + cos (vz o) * (vy t - vy o)) * D a 2%nat /\
  f_jd st D (c_2poses2d obs u) [a; b] 1 = - sin (vz o) * (D b 0%nat - D a 0%nat) + cos (vz o) * (D b 1%nat - D a 1%nat) + (- cos (vz o) * (vx t - vx o) - sin (vz o) * (vy t - vy o)) * D a 2%nat /\
  f_jd st D (c_2poses2d obs u) [a; b] 2 = D b 2%nat - D a 2%nat.
Proof. intros A B. unfold f_jd. cbn [map]. rewrite A, B. repeat split; rows. Qed.
Lemma jd_odom obs u D a b o t : st a = P2 o -> st b = P2 t ->
  f_jd st D (c_odom obs u) [a; b] 0 = D a 0%nat - D b 0%nat - vy obs * sin (vz o) * D a 2%nat /\
  f_jd st D (c_odom obs u) [a; b] 1 = D a 1%nat - D b 1%nat + vy obs * cos (vz o) * D a 2%nat /\
  f_jd st D (c_odom obs u) [a; b] 2 = D a 2%nat - D b 2%nat.
Proof. intros A B. unfold f_jd. cbn [map]. rewrite A, B. repeat split; rows. Qed.
Definition v3fun (a b c : R) (k : nat) : R := match k with 0 => a | 1 => b | _ => c end%nat.
(** the second node can follow the first, and the first the second *)
Lemma rel_solve obs u a b o t (r : nat -> R) : st a = P2 o -> st b = P2 t -> forall da db : nat -> R,
  (exists e, forall D, (forall k, D a k = da k) -> (forall k, D b k = e k) -> forall i, (i < 3)%nat -> f_jd st D (c_2poses2d obs u) [a; b] i = r i) /\
  (exists e, forall D, (forall k, D b k = db k) -> (forall k, D a k = e k) -> forall i, (i < 3)%nat -> f_jd st D (c_2poses2d obs u) [a; b] i = r i).
Proof.
  intros A B da db. pose proof (sin2_cos2 (vz o)) as SC. unfold Rsqr in SC. set (c := cos (vz o)) in *. set (s := sin (vz o)) in *. set (p := - s * (vx t - vx o) + c * (vy t - vy o)). set (q := - c * (vx t - vx o) - s * (vy t - vy o)). split.
  - exists (v3fun (da 0%nat + c * (r 0%nat - p * da 2%nat) - s * (r 1%nat - q * da 2%nat)) (da 1%nat + s * (r 0%nat - p * da 2%nat) + c * (r 1%nat - q * da 2%nat)) (da 2%nat + r 2%nat)).
    intros D Ha Hb. destruct (jd_rel obs u D a b o t A B) as (J0 & J1 & J2). rewrite !Ha, !Hb in *. fold c s in J0, J1. fold p in J0. fold q in J1. cbn [v3fun] in *. intros [|[|[|i]]] Hi; [rewrite J0|rewrite J1|rewrite J2|lia]; clearbody c s p q.
    + transitivity ((s * s + c * c) * (r 0%nat - p * da 2%nat) + p * da 2%nat); [ring|rewrite SC; ring].
    + transitivity ((s * s + c * c) * (r 1%nat - q * da 2%nat) + q * da 2%nat); [ring|rewrite SC; ring].
    + ring.
  - set (z := db 2%nat - r 2%nat). exists (v3fun (db 0%nat - c * (r 0%nat - p * z) + s * (r 1%nat - q * z)) (db 1%nat - s * (r 0%nat - p * z) - c * (r 1%nat - q * z)) z).
    intros D Hb Ha. destruct (jd_rel obs u D a b o t A B) as (J0 & J1 & J2). rewrite !Ha, !Hb in *. fold c s in J0, J1. fold p in J0. fold q in J1. cbn [v3fun] in *. intros [|[|[|i]]] Hi; [rewrite J0|rewrite J1|rewrite J2|lia]; clearbody c s p q.
    + transitivity ((s * s + c * c) * (r 0%nat - p * z) + p * z); [ring|rewrite SC; ring].
    + transitivity ((s * s + c * c) * (r 1%nat - q * z) + q * z); [ring|rewrite SC; ring].
    + unfold z. ring.
Qed.
Lemma odom_solve obs u a b o t (r : nat -> R) : st a = P2 o -> st b = P2 t -> forall da db : nat -> R,
  (exists e, forall D, (forall k, D a k = da k) -> (forall k, D b k = e k) -> forall i, (i < 3)%nat -> f_jd st D (c_odom obs u) [a; b] i = r i) /\
  (exists e, forall D, (forall k, D b k = db k) -> (forall k, D a k = e k) -> forall i, (i < 3)%nat -> f_jd st D (c_odom obs u) [a; b] i = r i).
Proof.
  intros A B da db. set (c := vy obs * cos (vz o)). set (s := vy obs * sin (vz o)). split.
  - exists (v3fun (da 0%nat - s * da 2%nat - r 0%nat) (da 1%nat + c * da 2%nat - r 1%nat) (da 2%nat - r 2%nat)).
    intros D Ha Hb. destruct (jd_odom obs u D a b o t A B) as (J0 & J1 & J2). rewrite !Ha, !Hb in *. fold s in J0. fold c in J1. cbn [v3fun] in *. intros [|[|[|i]]] Hi; [rewrite J0|rewrite J1|rewrite J2|lia]; ring.
  - set (z := db 2%nat + r 2%nat). exists (v3fun (db 0%nat + s * z + r 0%nat) (db 1%nat - c * z + r 1%nat) z).
    intros D Hb Ha. destruct (jd_odom obs u D a b o t A B) as (J0 & J1 & J2). rewrite !Ha, !Hb in *. fold s in J0. fold c in J1. cbn [v3fun] in *. intros [|[|[|i]]] Hi; [rewrite J0|rewrite J1|rewrite J2; unfold z|lia]; ring.
Qed.
Lemma next_dir known c j D0 : adds known c j -> ~ In j known -> planar_call c -> exists e, forall D, (forall k, D j k = e k) -> (forall i k, In i known -> D i k = D0 i k) -> lin_zero st D c.
Proof.
  intros A N Pl. destruct c; cbn [adds planar_call] in *; try contradiction.
  - subst. destruct Pl as [x Ex]. exists (fun k => fc_res (c_pose2d obs) (map st [id]) k). intros D Dj _ i Hi. cbn [fc_dim c_pose2d] in Hi. rewrite (jd_pose2d obs D id x i Ex Hi). apply Dj.
  - destruct Pl as [[x Ex] [y Ey]]. unfold lin_zero, call_factor. cbn [pycall_op]. destruct (idO <? idT)%nat; [set (cl := c_2poses2d obs _)|set (cl := c_2poses2d (v3opp obs) _)].
    + destruct (rel_solve obs (target_pos false updateNodeTarget) idO idT x y (fc_res cl (map st [idO; idT])) Ex Ey (D0 idO) (D0 idT)) as [[e1 H1] [e2 H2]]. destruct A as [[-> I]|[-> I]]; [exists e1; intros D Dj Dk; apply H1|exists e2; intros D Dj Dk; apply H2]; auto; intros k; apply Dk, I.
    + destruct (rel_solve (v3opp obs) (target_pos true updateNodeTarget) idT idO y x (fc_res cl (map st [idT; idO])) Ey Ex (D0 idT) (D0 idO)) as [[e1 H1] [e2 H2]]. destruct A as [[-> I]|[-> I]]; [exists e2; intros D Dj Dk; apply H2|exists e1; intros D Dj Dk; apply H1]; auto; intros k; apply Dk, I.
  - destruct Pl as [[x Ex] [y Ey]]. unfold lin_zero, call_factor. cbn [pycall_op]. destruct (idO <? idT)%nat; [set (cl := c_odom obs _)|set (cl := c_odom (v3opp obs) _)].
    + destruct (odom_solve obs (target_pos false true) idO idT x y (fc_res cl (map st [idO; idT])) Ex Ey (D0 idO) (D0 idT)) as [[e1 H1] [e2 H2]]. destruct A as [[-> I]|[-> I]]; [exists e1; intros D Dj Dk; apply H1|exists e2; intros D Dj Dk; apply H2]; auto; intros k; apply Dk, I.
    + destruct (odom_solve (v3opp obs) (target_pos true true) idT idO y x (fc_res cl (map st [idT; idO])) Ey Ex (D0 idT) (D0 idO)) as [[e1 H1] [e2 H2]]. destruct A as [[-> I]|[-> I]]; [exists e2; intros D Dj Dk; apply H2|exists e1; intros D Dj Dk; apply H1]; auto; intros k; apply Dk, I.
Qed.
Lemma tree_dir M : forall known D0, grown known M -> Forall planar_call M -> exists D, (forall i k, In i known -> D i k = D0 i k) /\ Forall (lin_zero st D) M.
Proof.
  induction M as [|c M IH]; intros known D0 G Pl; [exists D0; split; auto|]. inversion G as [|K c' j M' A N G']; subst. inversion Pl as [|? ? Pc Pl']; subst. destruct (next_dir known c j D0 A N Pc) as [e He].
  destruct (IH (j :: known) (fun i k => if Nat.eqb i j then e k else D0 i k) G' Pl') as (D & Dk & Dz). exists D.
  assert (K : forall i k, In i known -> D i k = D0 i k) by (intros i k I; rewrite Dk by (right; auto); destruct (Nat.eqb_spec i j) as [->|]; [contradiction|reflexivity]).
  split; auto. constructor; auto. apply He; auto. intros k. rewrite Dk by (left; auto). rewrite Nat.eqb_refl. reflexivity.
Qed.
(** no heading moves if the headings are met *)
Lemma tree_heads M : forall known D, grown known M -> Forall planar_call M -> Forall (lin_zero st D) M -> (forall i, In i known -> D i 2%nat = 0) ->
  Forall (fun c => match call_factor c with Some (cl, ids, _) => fc_res cl (map st ids) 2%nat = 0 | None => True end) M ->
  Forall (fun c => match call_factor c with Some (_, ids, _) => Forall (fun i => D i 2%nat = 0) ids | None => True end) M.
Proof.
  induction M as [|c M IH]; intros known D G Pl Lz Hk Hm; auto. inversion G as [|K c' j M' A N G']; subst. inversion Pl as [|? ? Pc Pl']; subst. inversion Lz as [|? ? Lc Lz']; subst. inversion Hm as [|? ? Hc Hm']; subst.
  assert (Q : D j 2%nat = 0 /\ match call_factor c with Some (_, ids, _) => Forall (fun i => D i 2%nat = 0) ids | None => True end).
  { destruct c; cbn [adds planar_call] in *; try contradiction.
    - subst. destruct Pc as [x Ex]. unfold lin_zero, call_factor in *. cbn [pycall_op fc_dim c_pose2d] in *. specialize (Lc 2%nat ltac:(lia)). rewrite (jd_pose2d _ _ _ _ _ Ex) in Lc by lia. split; [congruence|]. constructor; auto. congruence.
    - destruct Pc as [[x Ex] [y Ey]]. unfold lin_zero, call_factor in *. cbn [pycall_op] in *. destruct (idO <? idT)%nat; cbn [fc_dim c_2poses2d] in Lc; specialize (Lc 2%nat ltac:(lia)); rewrite Hc in Lc;
      [destruct (jd_rel obs (target_pos false updateNodeTarget) D idO idT x y Ex Ey) as (_ & _ & J)|destruct (jd_rel (v3opp obs) (target_pos true updateNodeTarget) D idT idO y x Ey Ex) as (_ & _ & J)]; rewrite J in Lc;
      (destruct A as [[-> I]|[-> I]]; specialize (Hk _ I); split; [lra|repeat constructor; lra|lra|repeat constructor; lra]).
    - destruct Pc as [[x Ex] [y Ey]]. unfold lin_zero, call_factor in *. cbn [pycall_op] in *. destruct (idO <? idT)%nat; cbn [fc_dim c_odom] in Lc; specialize (Lc 2%nat ltac:(lia)); rewrite Hc in Lc;
      [destruct (jd_odom obs (target_pos false true) D idO idT x y Ex Ey) as (_ & _ & J)|destruct (jd_odom (v3opp obs) (target_pos true true) D idT idO y x Ey Ex) as (_ & _ & J)]; rewrite J in Lc;
      (destruct A as [[-> I]|[-> I]]; specialize (Hk _ I); split; [lra|repeat constructor; lra|lra|repeat constructor; lra]). }
  destruct Q as [Qj Qc]. constructor; auto. apply (IH (j :: known) D); auto. intros i [<-|I]; auto.
Qed.
End Dirs.

(** ** the residuals after the step *)
Definition stepped (D : nat -> nat -> R) (st st' : nat -> nval) (i : nat) : Prop :=
  exists x n, st i = P2 x /\ st' i = P2 (mkV3 (vx x - D i 0%nat) (vy x - D i 1%nat) (vz x - D i 2%nat + 2 * PI * IZR n)).
Lemma wrap_turns n : wrap_angle (2 * PI * IZR n) = 0.
Proof. apply wrap_angle_unique; [pose proof PI_RGT_0; lra|]. exists (- n)%Z. rewrite opp_IZR. ring. Qed.
Lemma wrap_off a : exists n, wrap_angle a = a + 2 * PI * IZR n.
Proof. destruct (wrap_angle_spec a) as [_ [n E]]. eauto. Qed.
Lemma stepped_rel obs u D st st' a b : stepped D st st' a -> stepped D st st' b -> (forall i, (i < 3)%nat -> f_jd st D (c_2poses2d obs u) [a; b] i = fc_res (c_2poses2d obs u) (map st [a; b]) i) ->
  fc_res (c_2poses2d obs u) (map st' [a; b]) 2%nat = 0 /\ (D a 2%nat = 0 -> forall i, (i < 3)%nat -> fc_res (c_2poses2d obs u) (map st' [a; b]) i = 0).
Proof.
  intros (x & n & Ex & Ex') (y & m & Ey & Ey') L. destruct (jd_rel st obs u D a b x y Ex Ey) as (J0 & J1 & J2). pose proof (L 0%nat ltac:(lia)) as L0. pose proof (L 1%nat ltac:(lia)) as L1. pose proof (L 2%nat ltac:(lia)) as L2. rewrite J0 in L0. rewrite J1 in L1. rewrite J2 in L2. clear J0 J1 J2 L.
  cbn [map] in *. rewrite Ex, Ey in *. rewrite Ex', Ey'. cbn [fc_res c_2poses2d] in *. unfold res_2poses2d in *. cbn [wrap3 v3sub vx vy vz l3 lvec nth] in *.
  assert (H : wrap_angle (vz y - D b 2%nat + 2 * PI * IZR m - (vz x - D a 2%nat + 2 * PI * IZR n) - vz obs) = 0).
  { destruct (wrap_off (vz y - vz x - vz obs)) as [k K]. rewrite K in L2. replace (_ - vz obs) with (2 * PI * IZR (m - n - k)); [apply wrap_turns|]. rewrite !minus_IZR. lra. }
  split; auto. intros Z. rewrite Z in *. replace (vz x - 0 + 2 * PI * IZR n) with (vz x + 2 * PI * IZR n) by ring. rewrite cos_period_Z, sin_period_Z.
  intros [|[|[|i]]] Hi; [| |rewrite <- H; cbn; f_equal; ring|lia]; cbn; lra.
Qed.
Lemma stepped_odom obs u D st st' a b : stepped D st st' a -> stepped D st st' b -> (forall i, (i < 3)%nat -> f_jd st D (c_odom obs u) [a; b] i = fc_res (c_odom obs u) (map st [a; b]) i) ->
  fc_res (c_odom obs u) (map st' [a; b]) 2%nat = 0 /\ (D a 2%nat = 0 -> forall i, (i < 3)%nat -> fc_res (c_odom obs u) (map st' [a; b]) i = 0).
Proof.
  intros (x & n & Ex & Ex') (y & m & Ey & Ey') L. destruct (jd_odom st obs u D a b x y Ex Ey) as (J0 & J1 & J2). pose proof (L 0%nat ltac:(lia)) as L0. pose proof (L 1%nat ltac:(lia)) as L1. pose proof (L 2%nat ltac:(lia)) as L2. rewrite J0 in L0. rewrite J1 in L1. rewrite J2 in L2. clear J0 J1 J2 L.
  cbn [map] in *. rewrite Ex, Ey in *. rewrite Ex', Ey'. cbn [fc_res c_odom] in *. unfold res_odom, odom_prediction in *. cbn [wrap3 v3sub vx vy vz l3 lvec nth] in *.
  assert (H : wrap_angle (vz x - D a 2%nat + 2 * PI * IZR n + vx obs + vz obs - (vz y - D b 2%nat + 2 * PI * IZR m)) = 0).
  { destruct (wrap_off (vz x + vx obs + vz obs - vz y)) as [k K]. rewrite K in L2. replace (_ - (vz y - _ + _)) with (2 * PI * IZR (n - m - k)); [apply wrap_turns|]. rewrite !minus_IZR. lra. }
  split; auto. intros Z. rewrite Z in *. replace (vz x - 0 + 2 * PI * IZR n + vx obs) with (vz x + vx obs + 2 * PI * IZR n) by ring. rewrite cos_period_Z, sin_period_Z.
  intros [|[|[|i]]] Hi; [| |rewrite <- H; cbn; f_equal; ring|lia]; cbn; lra.
Qed.
Lemma stepped_prior obs D st st' a : stepped D st st' a -> (forall i, (i < 3)%nat -> f_jd st D (c_pose2d obs) [a] i = fc_res (c_pose2d obs) (map st [a]) i) -> forall i, (i < 3)%nat -> fc_res (c_pose2d obs) (map st' [a]) i = 0.
Proof.
  intros (x & n & Ex & Ex') L. assert (L' : forall i, (i < 3)%nat -> D a i = fc_res (c_pose2d obs) (map st [a]) i) by (intros i Hi; rewrite <- L by auto; symmetry; apply (jd_pose2d st obs D a x i Ex Hi)). pose proof (L' 0%nat ltac:(lia)) as L0. pose proof (L' 1%nat ltac:(lia)) as L1. pose proof (L' 2%nat ltac:(lia)) as L2. clear L L'.
  cbn [map] in *. rewrite Ex in *. rewrite Ex'. cbn [fc_res c_pose2d] in *. unfold res_pose2d in *. cbn [wrap3 v3sub vx vy vz l3 lvec nth] in *. intros [|[|[|i]]] Hi; [cbn; lra|cbn; lra| |lia]. cbn.
  destruct (wrap_off (vz x - vz obs)) as [k K]. rewrite K in L2. replace (_ - vz obs) with (2 * PI * IZR (n - k)); [apply wrap_turns|]. rewrite minus_IZR. lra.
Qed.

(** ** the Gauss-Newton step meets the linearised measurements if that is possible *)
Lemma lin_step lin rob cs k la tol s t D : exact lin -> Forall call_info cs -> rob <> RANSAC -> inv rob cs (s_w s) -> one_step 0 (s_w s) -> (forall i v k, nth_error (nodes_of cs) i = Some (ANCHOR, v) -> D i k = 0) ->
  (forall c, In c cs -> lin_zero (state_of (s_w s)) D c) -> solve lin GN k la tol s = Some t -> forall i m v, nth_error (nodes_of cs) i = Some (m, v) ->
  (m = ANCHOR -> state_of (s_w t) i = state_of (s_w s) i) /\ (m <> ANCHOR -> state_of (s_w t) i = val_update (state_of (s_w s) i) (fun j => - D i j)).
Proof.
  intros X P NR V On A Lz E i m v Ei. pose proof (gd_wf _ (iv_good _ _ _ V)) as Wf. set (w := s_w s) in *.
  assert (NS : forall b, build_problem false s = Some b -> nonsingular (g_stateDim (w_graph w)) (s_L b)) by (intros b Q; apply (gn_regular s b Wf); auto; intros x Z; apply On; fold w in Z; rewrite Z; ring).
  destruct (gn_step lin k la tol s t Wf X NS E) as (Gr & O & d & Ed & U). fold w in Gr, O, Ed, U.
  destruct (dir_vector rob cs w D V A) as [y0 Y0].
  assert (Fy : forall y, gn_form w y y0 = gn_rhs w y).
  { intros y. rewrite (facts_rhs rob cs w V P NR), (facts_form rob cs w V P NR), !lift_facts. apply lsum_ext. intros c Ic. unfold lift. specialize (Lz c Ic). unfold lin_zero in Lz. destruct (call_factor c) as [[[cl ids] W]|] eqn:Ec; auto.
    assert (Al : alike (fun i => i) (length (nodes_of cs)) (state_of w) (state_of w) (cl, ids, W) (cl, ids, W)).
    { rewrite <- (map_id ids) at 2. apply (alike_class (fun i => i)); [intros j _; reflexivity|]. apply (ids_below rob cs w c cl ids W V Ic Ec). }
    transitivity (f_f rob (state_of w) (inc_of w y) D (cl, ids, W)).
    - apply (proj2 (proj2 (alike_costs _ _ _ _ rob _ _ Al) (inc_of w y) (inc_of w y) ltac:(intros j l _ _; reflexivity)) D (inc_of w y0)). intros j l Hj Hl. apply Y0; auto.
    - unfold f_f, f_g. f_equal. apply quad_ext; auto. }
  assert (Sb : same_below (g_stateDim (w_graph w)) d y0) by (apply (step_unique 0 s d y0 Wf On); fold w; intros y; rewrite Fy, Ed; ring).
  destruct (mode_of rob cs w i m v V Ei) as (l & G & M & Id & Es & K). assert (Gt : state_of (s_w t) i = nst (n_data (nd (s_w t) l))) by (unfold state_of, get_node in *; rewrite Gr, G; reflexivity). split.
  - intros ->. rewrite Gt, Es. apply O. intros I. apply (proj2 (wf_active _ Wf l I)). exact M.
  - intros NA. destruct (standard_active rob cs w i m v l V Ei NA G) as [a Ha]. specialize (U a l Ha). rewrite Gt, U, Es. apply val_update_ext. intros j Hj. rewrite <- Es in Hj.
    assert (Hi : (i < length (nodes_of cs))%nat) by (apply nth_error_Some; congruence). assert (Q : inc_of w (fun i => - d i) i j = - D i j); [|unfold inc_of in Q; rewrite G in Q; exact Q].
    rewrite inc_opp. f_equal. rewrite (below_inc rob cs w V d y0 i j Sb Hi Hj). apply Y0; auto.
Qed.

(** ** one step of a session *)
Lemma planar_id rob cs w i : inv rob cs w -> nth_error (fold_left kinds_after cs []) i = Some KP2 -> planar (state_of w) i /\ exists m v, nth_error (nodes_of cs) i = Some (m, v).
Proof.
  intros V H. destruct (state_kind rob cs w i _ V H) as (l & G & K & _). split; [unfold planar; destruct (state_of w i) as [x| | | |]; try discriminate; eauto|].
  assert (Hi : (i < length (nodes_of cs))%nat) by (rewrite <- session_len; apply nth_error_Some; congruence). destruct (nth_error (nodes_of cs) i) as [[m v]|] eqn:E; [eauto|apply nth_error_None in E; lia].
Qed.
Lemma grown_planar rob cs w known M : typed [] cs -> inv rob cs w -> grown known M -> (forall c, In c M -> In c cs) -> Forall (planar_call (state_of w)) M /\ Forall (fun c => match call_factor c with Some (_, ids, _) => Forall (fun i => nth_error (fold_left kinds_after cs []) i = Some KP2) ids | None => True end) M.
Proof.
  intros T V G. induction G as [known|known c j M A N G IH]; intros H; [split; constructor|]. destruct (IH ltac:(intros; apply H; right; auto)) as [IH1 IH2]. pose proof (typed_in cs c [] T (H c (or_introl eq_refl))) as Ty.
  destruct c; cbn [adds typed1] in *; try contradiction; split; constructor; auto; cbn [planar_call]; unfold call_factor; cbn [pycall_op]; try (destruct (idO <? idT)%nat); try (repeat constructor; tauto);
  repeat split; eapply planar_id; eauto; tauto.
Qed.
Lemma tree_step lin rob cs k la tol s t : exact lin -> Forall call_info cs -> rob <> RANSAC -> typed [] cs -> inv rob cs (s_w s) -> one_step 0 (s_w s) -> tree cs -> solve lin GN k la tol s = Some t ->
  headings_met cs (state_of (s_w t)) /\ (headings_met cs (state_of (s_w s)) -> consistent cs (state_of (s_w t))).
Proof.
  intros X P NR T V On (anchors & M & HA & G & HM) E. assert (MI : forall c, In c M -> In c cs) by (intros c I; apply HM, I). destruct (grown_planar rob cs _ anchors M T V G MI) as [Pl Pi].
  destruct (tree_dir (state_of (s_w s)) M anchors (fun _ _ => 0) G Pl) as (D & DA & DZ). rewrite Forall_forall in DZ.
  assert (Lz : forall c, In c cs -> lin_zero (state_of (s_w s)) D c) by (intros c Ic; destruct (call_factor c) eqn:Ec; [apply DZ, HM; split; auto; congruence|unfold lin_zero; rewrite Ec; exact I]).
  assert (A0 : forall i v k, nth_error (nodes_of cs) i = Some (ANCHOR, v) -> D i k = 0) by (intros i v j Ei; apply DA, HA; eauto).
  assert (St : forall i, nth_error (fold_left kinds_after cs []) i = Some KP2 -> stepped D (state_of (s_w s)) (state_of (s_w t)) i).
  { intros i Hi. destruct (planar_id rob cs _ i V Hi) as [[x Ex] (m & v & Ei)]. destruct (lin_step lin rob cs k la tol s t D X P NR V On A0 Lz E i m v Ei) as [SA SN]. exists x.
    assert (N : m <> ANCHOR -> exists n : BinNums.Z, state_of (s_w s) i = P2 x /\ state_of (s_w t) i = P2 (mkV3 (vx x - D i 0%nat) (vy x - D i 1%nat) (vz x - D i 2%nat + 2 * PI * IZR n))).
    { intros NA. rewrite (SN NA), Ex. cbn [val_update]. destruct (wrap_off (vz x + - D i 2%nat)) as [n Hn]. exists n. split; auto. f_equal. unfold wrap3, v3add, dx3. cbn. rewrite Hn. f_equal; ring. }
    destruct m; [apply N; discriminate| |apply N; discriminate]. exists 0%Z. split; auto. rewrite (SA eq_refl), Ex, !(A0 i v _ Ei). destruct x as [a b c]. cbn. f_equal. f_equal; ring. }
  assert (Re : forall c cl ids W, In c cs -> call_factor c = Some (cl, ids, W) -> fc_dim cl = 3%nat /\ fc_res cl (map (state_of (s_w t)) ids) 2%nat = 0 /\ (Forall (fun i => D i 2%nat = 0) ids -> forall i, (i < 3)%nat -> fc_res cl (map (state_of (s_w t)) ids) i = 0)).
  { intros c cl ids W Ic Ec. assert (Im : In c M) by (apply HM; split; auto; congruence). rewrite Forall_forall in Pi, Pl. specialize (Pi c Im). specialize (Pl c Im). specialize (Lz c Ic). unfold lin_zero in Lz. rewrite Ec in Lz, Pi. clear - Ec Pi Pl Lz St.
    assert (Ss : Forall (stepped D (state_of (s_w s)) (state_of (s_w t))) ids) by (eapply Forall_impl; [|exact Pi]; exact St). clear Pi St. unfold call_factor in Ec.
    destruct c; cbn [planar_call] in Pl; try contradiction; cbn [pycall_op] in Ec; try destruct (idO <? idT)%nat; injection Ec as <- <- <-; cbn [fc_dim c_pose2d c_2poses2d c_odom] in *; split; auto; inversion Ss as [|? ? S1 Ss']; subst; try (inversion Ss' as [|? ? S2 _]; subst).
    - pose proof (stepped_prior _ _ _ _ _ S1 Lz) as Q. split; [apply Q; lia|intros _; exact Q].
    - destruct (stepped_rel _ _ _ _ _ _ _ S1 S2 Lz) as [Q0 Q1]. split; auto. intros F. apply Q1. apply (Forall_inv F).
    - destruct (stepped_rel _ _ _ _ _ _ _ S1 S2 Lz) as [Q0 Q1]. split; auto. intros F. apply Q1. apply (Forall_inv F).
    - destruct (stepped_odom _ _ _ _ _ _ _ S1 S2 Lz) as [Q0 Q1]. split; auto. intros F. apply Q1. apply (Forall_inv F).
    - destruct (stepped_odom _ _ _ _ _ _ _ S1 S2 Lz) as [Q0 Q1]. split; auto. intros F. apply Q1. apply (Forall_inv F). }
  split.
  - intros f Ic. destruct (call_factor f) as [[[cl ids] W]|] eqn:Ec; auto. exact (proj1 (proj2 (Re f cl ids W Ic Ec))).
  - intros Hm f Ic N. unfold residual_zero, zero_residual. destruct (call_factor f) as [[[cl ids] W]|] eqn:Ec; [|congruence]. destruct (Re f cl ids W Ic Ec) as (-> & _ & Q). apply Q.
    assert (F : Forall (fun c => match call_factor c with Some (cl, ids, _) => fc_res cl (map (state_of (s_w s)) ids) 2%nat = 0 | None => True end) M) by (apply Forall_forall; intros c' I'; apply Hm, MI, I').
    pose proof (tree_heads (state_of (s_w s)) M anchors D G Pl ltac:(apply Forall_forall; exact DZ) ltac:(intros i I; apply DA; auto) F) as Z. rewrite Forall_forall in Z. specialize (Z f ltac:(apply HM; split; auto; congruence)). rewrite Ec in Z. exact Z.
Qed.
(** ** after the step the headings are wrapped *)
Lemma tree_planar cs i m v : typed [] cs -> tree cs -> held cs i -> nth_error (nodes_of cs) i = Some (m, v) -> m <> ANCHOR -> nth_error (fold_left kinds_after cs []) i = Some KP2.
Proof.
  intros T (anchors & M & _ & G & HM) Hd Ei NA. assert (GP : forall c, In c M -> match c with CPose2d _ _ _ | C2Poses2d _ _ _ _ _ | COdom2d _ _ _ _ => True | _ => False end).
  { clear - G. induction G as [|known c j M A N G IH]; intros c' I; [destruct I|]. destruct I as [<-|I]; [|exact (IH c' I)]. destruct c; cbn [adds] in A; try exact I; contradiction. }
  assert (Use : forall c, In c cs -> call_factor c <> None -> match c with CPose2d _ _ _ | C2Poses2d _ _ _ _ _ | COdom2d _ _ _ _ => True | _ => False end) by (intros c I N; apply GP, HM; auto).
  inversion Hd as [j v' H|obs j W H Po|obs j W H Po|obs j l W u H Po Hj|obs j l W u H Po Hj|obs j l W H Po Hj|obs j l W H Po Hj|obs j l W u H Po Hj|obs j l W u H Po Hj|r b j l W u H Po Hj|obs j l W u H Po Hj|obs j l W H Po Hj]; subst; [congruence|..];
  pose proof (typed_in cs _ [] T H) as Ty; cbn [typed1] in Ty; try tauto; exfalso; eapply (Use _ H); unfold call_factor; cbn [pycall_op]; repeat match goal with |- context [if ?b then _ else _] => destruct b end; discriminate.
Qed.
Lemma tree_settled lin rob cs k la tol s t : exact lin -> typed [] cs -> inv rob cs (s_w s) -> one_step 0 (s_w s) -> tree cs -> (forall i, (i < length (nodes_of cs))%nat -> held cs i) -> solve lin GN k la tol s = Some t ->
  forall i m v, nth_error (nodes_of cs) i = Some (m, v) -> m <> ANCHOR -> settled (state_of (s_w t) i).
Proof.
  intros X T V On Tr Hd E i m v Ei NA. pose proof (gd_wf _ (iv_good _ _ _ V)) as Wf.
  assert (NS : forall b, build_problem false s = Some b -> nonsingular (g_stateDim (w_graph (s_w s))) (s_L b)) by (intros b Q; apply (gn_regular s b Wf); auto; intros x Z; apply On; rewrite Z; ring).
  destruct (gn_step lin k la tol s t Wf X NS E) as (Gr & O & d & Ed & U). assert (Hi : (i < length (nodes_of cs))%nat) by (apply nth_error_Some; congruence).
  destruct (planar_id rob cs _ i V (tree_planar cs i m v T Tr (Hd i Hi) Ei NA)) as [[x Ex] _]. destruct (mode_of rob cs _ i m v V Ei) as (l & G & M & Id & Es & K). destruct (standard_active rob cs _ i m v l V Ei NA G) as [a Ha]. specialize (U a l Ha).
  assert (Gt : state_of (s_w t) i = nst (n_data (nd (s_w t) l))) by (unfold state_of, get_node in *; rewrite Gr, G; reflexivity). rewrite Gt, U, <- Es, Ex. cbn [val_update settled wrap3 vz]. apply wrap_angle_spec.
Qed.
