(** Planar factors: landmark observations, reversed node order, initial values,
    independence of full turns. *)
Require Import Reals List Arith Lia Lra Psatz.
From Verif Require Import Lin LinFacts SO3 SE3 Angle AngleProofs SpecGeom Nodes NodesProofs Robust Graph Sums Solve SpecSolve Session Factors SpecFactors FactorsDer.
Import ListNotations.
Local Open Scope R_scope.

(** ** atan2 *)
Lemma sqrt_ratio x y : 0 < x -> sqrt (1 + (y / x)²) = sqrt (x * x + y * y) / x.
Proof.
  intros P. replace (1 + (y / x)²) with ((x * x + y * y) / (x * x)) by (unfold Rsqr; field; lra).
  rewrite sqrt_div_alt by nra. rewrite sqrt_square by lra. reflexivity.
Qed.
Lemma atan2_spec x y : 0 < x * x + y * y ->
  sqrt (x * x + y * y) * cos (atan2 y x) = x /\ sqrt (x * x + y * y) * sin (atan2 y x) = y.
Proof.
  intros Q. assert (N : 0 < sqrt (x * x + y * y)) by (apply sqrt_lt_R0; auto).
  unfold atan2. destruct (Rltb 0 x) eqn:E1.
  { apply Rltb_iff in E1. rewrite cos_atan, sin_atan, sqrt_ratio by auto. split; field; lra. }
  apply Rltb_niff in E1. destruct (Rltb x 0) eqn:E2.
  { apply Rltb_iff in E2.
    assert (S : sqrt (1 + (y / x)²) = sqrt (x * x + y * y) / (- x)).
    { replace (y / x) with ((- y) / (- x)) by (field; lra). rewrite sqrt_ratio by lra. do 2 f_equal; ring. }
    destruct (Rleb 0 y).
    - rewrite neg_cos, neg_sin, cos_atan, sin_atan, S. split; field; lra.
    - replace (atan (y / x) - PI) with (- (PI - atan (y / x))) by ring. rewrite cos_neg, sin_neg.
      rewrite Rtrigo_facts.cos_pi_minus, Rtrigo_facts.sin_pi_minus, cos_atan, sin_atan, S. split; field; lra. }
  apply Rltb_niff in E2. assert (x = 0) by lra. subst x.
  replace (0 * 0 + y * y) with (y * y) in * by ring.
  destruct (Rltb 0 y) eqn:E3.
  { apply Rltb_iff in E3. rewrite cos_PI2, sin_PI2, sqrt_square by lra. split; ring. }
  apply Rltb_niff in E3. destruct (Rltb y 0) eqn:E4.
  { apply Rltb_iff in E4. rewrite cos_neg, sin_neg, cos_PI2, sin_PI2.
    replace (y * y) with ((- y) * (- y)) by ring. rewrite sqrt_square by lra. split; ring. }
  apply Rltb_niff in E4. assert (y = 0) by lra. subst. lra.
Qed.
Lemma atan2_angle x y a r : 0 < r -> x = r * cos a -> y = r * sin a -> same_heading (atan2 y x) a.
Proof.
  intros P X Y. assert (Q : x * x + y * y = r * r). { subst x y. pose proof (cs1 a). nra. }
  assert (Q0 : 0 < x * x + y * y) by (rewrite Q; nra).
  destruct (atan2_spec x y Q0) as [A B]. rewrite Q, sqrt_square in A, B by lra.
  apply cos_sin_same; [apply (Rmult_eq_reg_l r); lra | apply (Rmult_eq_reg_l r); lra].
Qed.
(** the direction turns by the cross product over the squared distance *)
Lemma dl_bearing f g h a b c k : derivable_pt_lim f 0 a -> derivable_pt_lim g 0 b -> derivable_pt_lim h 0 c ->
  let q := f 0 * f 0 + g 0 * g 0 in 0 < q -> wrap_angle (atan2 (g 0) (f 0) - h 0 - k) <> - PI ->
  derivable_pt_lim (fun s => wrap_angle (atan2 (g s) (f s) - h s - k)) 0 ((f 0 * b - g 0 * a) / q - c).
Proof.
  intros F G H q Q N. set (x0 := f 0) in *. set (y0 := g 0) in *.
  set (dot := fun s => x0 * f s + y0 * g s). set (crs := fun s => x0 * g s - y0 * f s).
  assert (D : derivable_pt_lim dot 0 (x0 * a + y0 * b)) by (unfold dot; eapply dl_eq; [der | cbv beta; ring]).
  assert (C : derivable_pt_lim crs 0 (x0 * b - y0 * a)) by (unfold crs; eapply dl_eq; [der | cbv beta; ring]).
  assert (D0 : dot 0 = q) by (unfold dot, q, x0, y0; ring).
  assert (C0 : crs 0 = 0) by (unfold crs, x0, y0; ring).
  set (phi := fun s => atan2 y0 x0 + atan (crs s / dot s)).
  assert (P : derivable_pt_lim phi 0 ((x0 * b - y0 * a) / q)).
  { unfold phi. eapply dl_eq.
    - apply dl_plus; [apply dl_const | apply dl_atan; apply dl_div; [exact C | exact D | rewrite D0; lra]].
    - cbv beta. rewrite C0, D0. replace (1 + (0 / q) ^ 2) with 1 by (field; lra). unfold Rsqr. field. lra. }
  assert (P0 : phi 0 = atan2 y0 x0). { unfold phi. rewrite C0. unfold Rdiv. rewrite Rmult_0_l, atan_0. ring. }
  destruct (continuity_near dot 0 q (dl_continuity _ _ _ D) Q) as (d & Hd & Hdot).
  apply dl_near with (f := fun s => wrap_angle (phi s - h s - k)) (d := d); auto.
  2:{ apply dl_wrap. { eapply dl_eq; [eapply dl_minus; [eapply dl_minus; [exact P | exact H] | apply dl_const] | ring]. }
      rewrite P0. exact N. }
  intros s Hs. specialize (Hdot s Hs). rewrite D0 in Hdot. apply Rabs_def2 in Hdot.
  assert (Ds : 0 < dot s) by lra.
  apply wrap_angle_same.
  assert (E : same_heading (atan2 (g s) (f s)) (phi s)); [|destruct E as [n En]; exists n; lra].
  destruct (atan2_spec x0 y0 Q) as [A0 B0]. fold q in A0, B0.
  assert (R0 : 0 < sqrt q) by (apply sqrt_lt_R0; auto).
  set (r := sqrt (f s * f s + g s * g s)).
  assert (CD : dot s * dot s + crs s * crs s = q * (f s * f s + g s * g s)) by (unfold dot, crs, q; ring).
  assert (Qs : 0 < f s * f s + g s * g s) by nra.
  assert (Rp : 0 < r) by (apply sqrt_lt_R0; auto).
  assert (SR : sqrt (1 + (crs s / dot s)²) = sqrt q * r / dot s).
  { rewrite sqrt_ratio by auto. rewrite CD, sqrt_mult by lra. reflexivity. }
  assert (QQ : sqrt q * sqrt q = q) by (apply sqrt_sqrt; lra).
  apply atan2_angle with (r := r); auto.
  - unfold phi. rewrite cos_plus, cos_atan, sin_atan, SR.
    replace (r * (cos (atan2 y0 x0) * (1 / (sqrt q * r / dot s)) - sin (atan2 y0 x0) * (crs s / dot s / (sqrt q * r / dot s))))
      with ((sqrt q * cos (atan2 y0 x0) * dot s - sqrt q * sin (atan2 y0 x0) * crs s) / (sqrt q * sqrt q)) by (field; lra).
    rewrite A0, B0, QQ. unfold dot, crs. fold x0 y0. unfold q. field. unfold q in Q. lra.
  - unfold phi. rewrite sin_plus, cos_atan, sin_atan, SR.
    replace (r * (sin (atan2 y0 x0) * (1 / (sqrt q * r / dot s)) + cos (atan2 y0 x0) * (crs s / dot s / (sqrt q * r / dot s))))
      with ((sqrt q * sin (atan2 y0 x0) * dot s + sqrt q * cos (atan2 y0 x0) * crs s) / (sqrt q * sqrt q)) by (field; lra).
    rewrite A0, B0, QQ. unfold dot, crs. fold x0 y0. unfold q. field. unfold q in Q. lra.
Qed.

(** ** Factor1Pose1Landmark2d *)
Definition gap2 (x : V3) (a b : R) : R := (a - vx x) * (a - vx x) + (b - vy x) * (b - vy x).
(** the two neighbours in stored order *)
Definition pair_of (rev : bool) (p l : nval) : list nval := if rev then [l; p] else [p; l].
Lemma landmark2d_res range bearing rev init x a b i :
  fc_res (c_landmark2d range bearing rev init) (pair_of rev (P2 x) (L2 a b)) i = lvec (res_landmark2d range bearing x a b) i.
Proof. destruct rev; reflexivity. Qed.
Lemma landmark2d_far range bearing x a b : 1 / 1000000 <= gap2 x a b ->
  res_landmark2d range bearing x a b = [sqrt (gap2 x a b) - range; wrap_angle (atan2 (b - vy x) (a - vx x) - vz x - bearing)].
Proof. intros H. unfold res_landmark2d. fold (gap2 x a b). rewrite (proj2 (Rltb_niff _ _) H). reflexivity. Qed.
Lemma landmark2d_close range bearing x a b : gap2 x a b < 1 / 1000000 -> res_landmark2d range bearing x a b = [0; 0].
Proof. intros H. unfold res_landmark2d. fold (gap2 x a b). rewrite (proj2 (Rltb_iff _ _) H). reflexivity. Qed.
Lemma landmark2d_zero range bearing rev init x a b : 0 <= range -> 1 / 1000000 <= gap2 x a b ->
  (zero_residual (c_landmark2d range bearing rev init) (pair_of rev (P2 x) (L2 a b)) <->
   a = vx x + range * cos (vz x + bearing) /\ b = vy x + range * sin (vz x + bearing)).
Proof.
  intros Rn G. assert (GP : 0 < gap2 x a b) by lra.
  assert (Z : zero_residual (c_landmark2d range bearing rev init) (pair_of rev (P2 x) (L2 a b)) <->
     sqrt (gap2 x a b) = range /\ same_heading (atan2 (b - vy x) (a - vx x)) (vz x + bearing)).
  { unfold zero_residual. split.
    - intros H. pose proof (H 0%nat ltac:(cbn; lia)) as H0. pose proof (H 1%nat ltac:(cbn; lia)) as H1.
      rewrite landmark2d_res, landmark2d_far in H0, H1 by auto. cbn -[wrap_angle] in H0, H1.
      split; [lra|]. apply wrap_angle_0_iff in H1. destruct H1 as [k K]. exists k. lra.
    - intros [H0 [k K]] i Hi. rewrite landmark2d_res, landmark2d_far by auto. cbn [fc_dim c_landmark2d] in Hi.
      destruct (i_lt_2 i Hi) as [->| ->]; cbn -[wrap_angle]; [lra|]. apply wrap_angle_0_iff. exists k. lra. }
  rewrite Z. clear Z. split.
  - intros [S A]. destruct (atan2_spec (a - vx x) (b - vy x) GP) as [X Y]. fold (gap2 x a b) in X, Y. rewrite S in X, Y.
    destruct (same_angle_trig _ _ A) as [T1 T2]. rewrite T1 in Y. rewrite T2 in X. split; lra.
  - intros [A B].
    assert (Q : gap2 x a b = range * range).
    { unfold gap2. rewrite A, B. pose proof (cs1 (vz x + bearing)). nra. }
    assert (P : 0 < range) by (rewrite Q in GP; nra).
    rewrite Q, sqrt_square by lra. split; auto.
    apply atan2_angle with (r := range); auto; lra.
Qed.
Lemma landmark2d_jac range bearing rev init x a b : 1 / 1000000 < gap2 x a b ->
  wrap_angle (atan2 (b - vy x) (a - vx x) - vz x - bearing) <> - PI ->
  jacobian_at (c_landmark2d range bearing rev init) (pair_of rev (P2 x) (L2 a b)).
Proof.
  intros G N cs ds H i Hi.
  assert (X : exists cp cl dp dl, cs = (if rev then [cl; cp] else [cp; cl]) /\ ds = (if rev then [dl; dp] else [dp; dl]) /\
     tangent cp (P2 x) dp /\ tangent cl (L2 a b) dl).
  { destruct rev; apply tangents_2 in H as (c1 & c2 & d1 & d2 & -> & -> & T1 & T2);
    [exists c2, c1, d2, d1 | exists c1, c2, d1, d2]; auto. }
  destruct X as (cp & cl & dp & dl & -> & -> & (E1 & f & Ec1 & (F1 & F2 & F3)) & (E2 & g1 & g2 & Ec2 & G1 & G2)). clear H.
  rewrite Ec1 in E1. injection E1 as E1. rewrite Ec2 in E2. injection E2 as E2a E2b. subst x a b.
  set (q := fun s => gap2 (f s) (g1 s) (g2 s)).
  assert (Dx : derivable_pt_lim (fun s => g1 s - vx (f s)) 0 (dl 0%nat - dp 0%nat)) by (eapply dl_eq; [der | reflexivity]).
  assert (Dy : derivable_pt_lim (fun s => g2 s - vy (f s)) 0 (dl 1%nat - dp 1%nat)) by (eapply dl_eq; [der | reflexivity]).
  assert (Dq : derivable_pt_lim q 0 (2 * ((g1 0 - vx (f 0)) * (dl 0%nat - dp 0%nat) + (g2 0 - vy (f 0)) * (dl 1%nat - dp 1%nat)))).
  { unfold q, gap2. eapply dl_eq; [eapply dl_plus; eapply dl_mult; eassumption | cbv beta; ring]. }
  destruct (continuity_near q 0 (gap2 (f 0) (g1 0) (g2 0) - 1 / 1000000) (dl_continuity _ _ _ Dq)) as (d & Hd & Hq); [lra|].
  apply dl_near with (f := fun s => lvec [sqrt (q s) - range; wrap_angle (atan2 (g2 s - vy (f s)) (g1 s - vx (f s)) - vz (f s) - bearing)] i) (d := d); auto.
  { intros s Hs. specialize (Hq s Hs). apply Rabs_def2 in Hq. unfold q in Hq.
    replace (map (fun f0 => f0 s) (if rev then [cl; cp] else [cp; cl])) with (pair_of rev (P2 (f s)) (L2 (g1 s) (g2 s))).
    2:{ destruct rev; cbn [map pair_of]; rewrite Ec1, Ec2; reflexivity. }
    rewrite landmark2d_res, landmark2d_far by lra. reflexivity. }
  assert (Q0 : 0 < q 0) by (unfold q; lra).
  assert (SQ : sqrt (q 0) <> 0) by (apply Rgt_not_eq, sqrt_lt_R0; auto).
  assert (J : forall i, (i < 2)%nat -> row_dir (fc_jac (c_landmark2d range bearing rev init) (pair_of rev (P2 (f 0)) (L2 (g1 0) (g2 0))) i) 0
      (pair_of rev (P2 (f 0)) (L2 (g1 0) (g2 0))) (if rev then [dl; dp] else [dp; dl]) =
    let (Jx, Jl) := jac_landmark2d (f 0) (g1 0) (g2 0) in
    sumn 3 (fun k => lmat Jx i k * dp k) + sumn 2 (fun k => lmat Jl i k * dl k)).
  { intros j Hj. unfold jac_landmark2d. fold (gap2 (f 0) (g1 0) (g2 0)).
    destruct rev; cbn [c_landmark2d fc_jac pair_of row_dir nval_dim fst snd]; unfold jac_landmark2d; fold (gap2 (f 0) (g1 0) (g2 0));
    rewrite (proj2 (Rltb_niff _ _) (Rlt_le _ _ G)); destruct (i_lt_2 j Hj) as [->| ->]; cbn; ring. }
  cbn [fc_dim c_landmark2d] in Hi. rewrite J by auto. unfold jac_landmark2d. fold (gap2 (f 0) (g1 0) (g2 0)).
  rewrite (proj2 (Rltb_niff _ _) (Rlt_le _ _ G)). fold (q 0).
  destruct (i_lt_2 i Hi) as [->| ->]; cbn -[wrap_angle].
  - eapply dl_eq; [apply dl_minus; [apply dl_sqrt; [exact Q0 | exact Dq] | apply dl_const]|]. cbn. field. auto.
  - eapply dl_eq; [apply (dl_bearing (fun s => g1 s - vx (f s)) (fun s => g2 s - vy (f s)) (fun s => vz (f s))); [exact Dx | exact Dy | exact F3 | exact Q0 | exact N]|].
    change ((g1 0 - vx (f 0)) * (g1 0 - vx (f 0)) + (g2 0 - vy (f 0)) * (g2 0 - vy (f 0))) with (q 0). cbn. field. lra.
Qed.
Lemma landmark2d_init_zero range bearing rev init x a b : 0 <= range -> init_landmark2d range bearing x = L2 a b ->
  zero_residual (c_landmark2d range bearing rev init) (pair_of rev (P2 x) (L2 a b)).
Proof.
  intros P E. unfold init_landmark2d in E. injection E as <- <-.
  destruct (Rlt_dec (gap2 x (vx x + range * cos (bearing + vz x)) (vy x + range * sin (bearing + vz x))) (1 / 1000000)) as [L|L].
  - intros i Hi. rewrite landmark2d_res, landmark2d_close by auto. cbn [fc_dim c_landmark2d] in Hi. destruct (i_lt_2 i Hi) as [->| ->]; reflexivity.
  - apply landmark2d_zero; auto; [lra|]. rewrite (Rplus_comm bearing). auto.
Qed.

(** ** reversed node order and initial values, planar poses *)
Lemma rot_fix c s x y : c * c + s * s = 1 -> (c * x - s * y = x /\ s * x + c * y = y <-> (x = 0 /\ y = 0) \/ (c = 1 /\ s = 0)).
Proof.
  intros E. split.
  - intros [A B]. destruct (Req_dec c 1) as [C|C]. { right. split; auto. subst c. nra. }
    left. assert (K : (1 - c) * (1 - c) + s * s <> 0) by (pose proof (Rsqr_pos_lt (1 - c) ltac:(lra)) as P; unfold Rsqr in P; nra).
    assert (X : ((1 - c) * (1 - c) + s * s) * x = 0).
    { replace (((1 - c) * (1 - c) + s * s) * x) with ((1 - c) * (x - (c * x - s * y)) + s * (s * x + c * y - y)) by ring. rewrite A, B. ring. }
    assert (Y : ((1 - c) * (1 - c) + s * s) * y = 0).
    { replace (((1 - c) * (1 - c) + s * s) * y) with ((1 - c) * (y - (s * x + c * y)) + s * (x - (c * x - s * y))) by ring. rewrite A, B. ring. }
    split; [apply (Rmult_eq_reg_l ((1 - c) * (1 - c) + s * s)); lra | apply (Rmult_eq_reg_l ((1 - c) * (1 - c) + s * s)); lra].
  - intros [[-> ->]|[-> ->]]; split; ring.
Qed.
Lemma heading_cs a : same_heading a 0 <-> cos a = 1 /\ sin a = 0.
Proof.
  split.
  - intros H. destruct (same_angle_trig _ _ H) as [S C]. rewrite cos_0 in C. rewrite sin_0 in S. auto.
  - intros [C S]. apply cos_sin_same; [rewrite cos_0 | rewrite sin_0]; auto.
Qed.
Lemma heading_cs_pi a : same_heading a PI <-> cos a = -1 /\ sin a = 0.
Proof.
  split.
  - intros H. destruct (same_angle_trig _ _ H) as [S C]. rewrite cos_PI in C. rewrite sin_PI in S. auto.
  - intros [C S]. apply cos_sin_same; [rewrite cos_PI | rewrite sin_PI]; auto.
Qed.
Lemma heading_trig_eq p q : same_pose2 p q -> cos (vz p) = cos (vz q) /\ sin (vz p) = sin (vz q).
Proof. intros (_ & _ & H). destruct (same_angle_trig _ _ H); auto. Qed.
Lemma poses2d_reversed obs init o t : same_pose2 t (compose2 o obs) ->
  (zero_residual (c_2poses2d (v3opp obs) init) [P2 t; P2 o] <-> (vx obs = 0 /\ vy obs = 0) \/ same_heading (vz obs) 0).
Proof.
  intros H. rewrite poses2d_zero, heading_cs, <- (rot_fix _ _ _ _ (cs1 (vz obs))).
  destruct (heading_trig_eq _ _ H) as [Ct St]. destruct H as (Tx & Ty & [k Tk]).
  unfold same_pose2, compose2 in *. cbn [vx vy vz v3opp] in *. rewrite Ct, St, Tx, Ty. clear Tx Ty Ct St.
  rewrite cos_plus, sin_plus. set (c := cos (vz o)). set (s := sin (vz o)). set (C := cos (vz obs)). set (Z := sin (vz obs)).
  set (x := vx obs). set (y := vy obs). assert (E : c * c + s * s = 1) by apply cs1. clearbody c s C Z x y.
  split.
  - intros (A & B & _).
    assert (A' : c * (C * x - Z * y - x) - s * (Z * x + C * y - y) = 0) by lra.
    assert (B' : s * (C * x - Z * y - x) + c * (Z * x + C * y - y) = 0) by lra.
    set (u := C * x - Z * y - x) in *. set (v := Z * x + C * y - y) in *.
    assert (U : (c * c + s * s) * u = 0).
    { replace ((c * c + s * s) * u) with (c * (c * u - s * v) + s * (s * u + c * v)) by ring. rewrite A', B'. ring. }
    assert (V : (c * c + s * s) * v = 0).
    { replace ((c * c + s * s) * v) with (c * (s * u + c * v) - s * (c * u - s * v)) by ring. rewrite A', B'. ring. }
    rewrite E in U, V. unfold u, v in U, V. split; lra.
  - intros [A B]. repeat split.
    + replace (vx o + (c * x - s * y) + ((c * C - s * Z) * - x - (s * C + c * Z) * - y))
        with (vx o + (c * x - s * y) - c * (C * x - Z * y) + s * (Z * x + C * y)) by ring. rewrite A, B. ring.
    + replace (vy o + (s * x + c * y) + ((s * C + c * Z) * - x + (c * C - s * Z) * - y))
        with (vy o + (s * x + c * y) - s * (C * x - Z * y) - c * (Z * x + C * y)) by ring. rewrite A, B. ring.
    + exists (- k)%Z. rewrite opp_IZR. lra.
Qed.
(** the target state written by the constructors *)
Lemma init_2poses2d_val obs o t : init_2poses2d obs o t = P2 (wrap3 (v3add o obs)).
Proof. unfold init_2poses2d. cbn [val_update]. do 2 f_equal. unfold dx3. cbn. destruct o, obs, t. unfold v3add. cbn. f_equal; ring. Qed.
Lemma init_odom_val obs o t : init_odom obs o t = P2 (wrap3 (odom_prediction o obs)).
Proof.
  unfold init_odom. cbn [val_update]. do 2 f_equal. unfold dx3. cbn [lvec l3 nth]. destruct (odom_prediction o obs), t.
  unfold v3add, v3sub. cbn. f_equal; ring.
Qed.
Lemma same_pose2_refl p : same_pose2 p p. Proof. repeat split. exists 0%Z. lra. Qed.
Lemma same_pose2_wrap p : same_pose2 (wrap3 p) p. Proof. repeat split. apply wrap_angle_spec. Qed.
Lemma same_pose2_trans p q r : same_pose2 p q -> same_pose2 q r -> same_pose2 p r.
Proof. intros (A & B & [k C]) (D & E & [n F]). repeat split; try congruence. exists (k + n)%Z. rewrite plus_IZR. lra. Qed.
Lemma same_pose2_sym p q : same_pose2 p q -> same_pose2 q p.
Proof. intros (A & B & [k C]). repeat split; auto. exists (- k)%Z. rewrite opp_IZR. lra. Qed.
Lemma poses2d_init obs init o t x : init_2poses2d obs o t = P2 x ->
  (zero_residual (c_2poses2d obs init) [P2 o; P2 x] <-> (vx obs = 0 /\ vy obs = 0) \/ same_heading (vz o) 0).
Proof.
  rewrite init_2poses2d_val. intros E. injection E as <-. rewrite poses2d_zero, heading_cs, <- (rot_fix _ _ _ _ (cs1 (vz o))).
  unfold same_pose2, compose2, wrap3. cbn [vx vy vz v3add].
  split.
  - intros (A & B & _). split; lra.
  - intros [A B]. repeat split; try lra. apply wrap_angle_spec.
Qed.
Lemma poses2d_init_reversed obs init o t x : init_2poses2d (v3opp obs) o t = P2 x ->
  (zero_residual (c_2poses2d (v3opp obs) init) [P2 x; P2 o] <->
   same_heading (2 * vz obs) 0 /\ ((vx obs = 0 /\ vy obs = 0) \/ same_heading (vz o - vz obs) PI)).
Proof.
  rewrite init_2poses2d_val. intros E. injection E as <-. rewrite poses2d_zero, heading_cs_pi.
  unfold same_pose2, compose2, wrap3. cbn [vx vy vz v3add v3opp].
  destruct (wrap_angle_trig (vz o + - vz obs)) as [S C]. rewrite S, C.
  replace (vz o - vz obs) with (vz o + - vz obs) by ring.
  set (c := cos (vz o + - vz obs)). set (s := sin (vz o + - vz obs)).
  assert (E : - c * - c + - s * - s = 1). { pose proof (cs1 (vz o + - vz obs)) as Q. fold c s in Q. lra. }
  pose proof (rot_fix (- c) (- s) (vx obs) (vy obs) E) as [Q1 Q2].
  split.
  - intros (A & B & [n D]). destruct (wrap_angle_spec (vz o + - vz obs)) as [_ [k K]]. split.
    { exists (k + n)%Z. rewrite plus_IZR. lra. }
    destruct Q1 as [Q|Q]; [split; lra | left; auto | right; lra].
  - intros [[n D] H]. destruct Q2 as [A B]. { destruct H as [H|H]; [left; auto | right; lra]. }
    repeat split; try lra. destruct (wrap_angle_spec (vz o + - vz obs)) as [_ [k K]]. exists (n - k)%Z. rewrite minus_IZR. lra.
Qed.
Lemma odom_init obs init o t x : init_odom obs o t = P2 x -> zero_residual (c_odom obs init) [P2 o; P2 x].
Proof. rewrite init_odom_val. intros E. injection E as <-. apply odom_zero, same_pose2_wrap. Qed.

(** ** full turns are invisible to every class *)
Lemma wrap_sub_l a b : wrap_angle (wrap_angle a - b) = wrap_angle (a - b).
Proof. apply wrap_angle_same. destruct (wrap_angle_spec a) as [_ [k K]]. exists k. lra. Qed.
Lemma wrap_sub_r a b : wrap_angle (a - wrap_angle b) = wrap_angle (a - b).
Proof. apply wrap_angle_same. destruct (wrap_angle_spec b) as [_ [k K]]. exists (- k)%Z. rewrite opp_IZR. lra. Qed.
Lemma wrap_add_l a b c : wrap_angle (wrap_angle a + b + c) = wrap_angle (a + b + c).
Proof. apply wrap_angle_same. destruct (wrap_angle_spec a) as [_ [k K]]. exists k. lra. Qed.
Lemma res_pose2d_wrap obs x : res_pose2d obs (wrap3 x) = res_pose2d obs x.
Proof. unfold res_pose2d, wrap3, v3sub. cbn [vx vy vz]. rewrite wrap_sub_l. reflexivity. Qed.
Lemma res_2poses2d_wrap_l obs o t : res_2poses2d obs (wrap3 o) t = res_2poses2d obs o t.
Proof.
  unfold res_2poses2d, wrap3, v3sub. cbn [vx vy vz]. destruct (wrap_angle_trig (vz o)) as [S C]. rewrite S, C.
  f_equal. apply wrap_angle_same. destruct (wrap_angle_spec (vz o)) as [_ [k K]]. exists (- k)%Z. rewrite opp_IZR. lra.
Qed.
Lemma res_2poses2d_wrap_r obs o t : res_2poses2d obs o (wrap3 t) = res_2poses2d obs o t.
Proof.
  unfold res_2poses2d, wrap3, v3sub. cbn [vx vy vz].
  f_equal. apply wrap_angle_same. destruct (wrap_angle_spec (vz t)) as [_ [k K]]. exists k. lra.
Qed.
Lemma res_odom_wrap_l obs o t : res_odom obs (wrap3 o) t = res_odom obs o t.
Proof.
  unfold res_odom, odom_prediction, wrap3, v3sub. cbn [vx vy vz].
  assert (T : sin (wrap_angle (vz o) + vx obs) = sin (vz o + vx obs) /\ cos (wrap_angle (vz o) + vx obs) = cos (vz o + vx obs)).
  { apply same_angle_trig. destruct (wrap_angle_spec (vz o)) as [_ [k K]]. exists k. lra. }
  destruct T as [-> ->]. f_equal. apply wrap_angle_same. destruct (wrap_angle_spec (vz o)) as [_ [k K]]. exists k. lra.
Qed.
Lemma res_odom_wrap_r obs o t : res_odom obs o (wrap3 t) = res_odom obs o t.
Proof. unfold res_odom, wrap3, v3sub. cbn [vx vy vz]. rewrite wrap_sub_r. reflexivity. Qed.
Lemma res_landmark2d_wrap range bearing x a b : res_landmark2d range bearing (wrap3 x) a b = res_landmark2d range bearing x a b.
Proof.
  unfold res_landmark2d, wrap3. cbn [vx vy vz]. destruct (Rltb _ _); [reflexivity|]. do 2 f_equal.
  apply wrap_angle_same. destruct (wrap_angle_spec (vz x)) as [_ [k K]]. exists (- k)%Z. rewrite opp_IZR. lra.
Qed.
Definition blind (c : fclass) : Prop := forall vs vs', Forall2 (fun v v' => v' = v \/ v' = val_set v) vs vs' ->
  forall i, fc_res c vs' i = fc_res c vs i.
Lemma forall2_short vs vs' : Forall2 (fun v v' => v' = v \/ v' = val_set v) vs vs' ->
  match vs with
  | [] => vs' = []
  | [v] => exists v', vs' = [v'] /\ (v' = v \/ v' = val_set v)
  | [v1; v2] => exists v1' v2', vs' = [v1'; v2'] /\ (v1' = v1 \/ v1' = val_set v1) /\ (v2' = v2 \/ v2' = val_set v2)
  | _ :: _ :: _ :: _ => exists a b c r, vs' = a :: b :: c :: r
  end.
Proof.
  intros H. destruct H as [|v v' r r' Hv H]; [reflexivity|]. destruct H as [|v2 v2' r r' Hv2 H]; [eauto|].
  destruct H; eauto 9.
Qed.
Ltac blind_tac := intros vs vs' H i; apply forall2_short in H; destruct vs as [|v1 [|v2 [|v3 r]]];
  [subst vs'; reflexivity
  | destruct H as (w1 & -> & H1)
  | destruct H as (w1 & w2 & -> & H1 & H2)
  | destruct H as (w1 & w2 & w3 & r' & ->); try reflexivity].
Ltac blind_end := repeat (first [rewrite res_pose2d_wrap | rewrite res_2poses2d_wrap_l | rewrite res_2poses2d_wrap_r
   | rewrite res_odom_wrap_l | rewrite res_odom_wrap_r | rewrite res_landmark2d_wrap]); reflexivity.
Lemma blind_pose2d obs : blind (c_pose2d obs).
Proof. blind_tac; [|destruct v1, w1; reflexivity|destruct v1, w1; reflexivity]. destruct v1; destruct H1 as [->| ->]; cbn [val_set fc_res c_pose2d]; blind_end. Qed.
Lemma blind_2poses2d obs k : blind (c_2poses2d obs k).
Proof.
  blind_tac; [destruct v1, w1; reflexivity| |destruct v1, v2, w1, w2; reflexivity].
  destruct v1; destruct v2; destruct H1 as [->| ->]; destruct H2 as [->| ->]; cbn [val_set fc_res c_2poses2d]; blind_end.
Qed.
Lemma blind_odom obs k : blind (c_odom obs k).
Proof.
  blind_tac; [destruct v1, w1; reflexivity| |destruct v1, v2, w1, w2; reflexivity].
  destruct v1; destruct v2; destruct H1 as [->| ->]; destruct H2 as [->| ->]; cbn [val_set fc_res c_odom]; blind_end.
Qed.
Lemma blind_pose3d obs : blind (c_pose3d obs).
Proof. blind_tac; [|destruct v1, w1; reflexivity|destruct v1, w1; reflexivity]. destruct v1; destruct H1 as [->| ->]; reflexivity. Qed.
Lemma blind_2poses3d obs k : blind (c_2poses3d obs k).
Proof.
  blind_tac; [destruct v1, w1; reflexivity| |destruct v1, v2, w1, w2; reflexivity].
  destruct v1; destruct v2; destruct H1 as [->| ->]; destruct H2 as [->| ->]; reflexivity.
Qed.
Lemma blind_landmark2d range bearing rev k : blind (c_landmark2d range bearing rev k).
Proof.
  blind_tac; [destruct rev; destruct v1, w1; reflexivity| |destruct rev; destruct v1, v2, w1, w2; reflexivity].
  destruct rev; destruct v1; destruct v2; destruct H1 as [->| ->]; destruct H2 as [->| ->]; cbn [val_set fc_res c_landmark2d]; blind_end.
Qed.
Lemma blind_landmark3d obs rev : blind (c_landmark3d obs rev).
Proof.
  blind_tac; [destruct rev; destruct v1, w1; reflexivity| |destruct rev; destruct v1, v2, w1, w2; reflexivity].
  destruct rev; destruct v1; destruct v2; destruct H1 as [->| ->]; destruct H2 as [->| ->]; reflexivity.
Qed.
Lemma blind_plane4d obs rev : blind (c_plane4d obs rev).
Proof.
  blind_tac; [destruct rev; destruct v1, w1; reflexivity| |destruct rev; destruct v1, v2, w1, w2; reflexivity].
  destruct rev; destruct v1; destruct v2; destruct H1 as [->| ->]; destruct H2 as [->| ->]; reflexivity.
Qed.
Lemma blind_point2plane a b c : blind (c_point2plane a b c).
Proof. blind_tac; [|destruct v1, w1; reflexivity|destruct v1, w1; reflexivity]. destruct v1; destruct H1 as [->| ->]; reflexivity. Qed.
