(** Proofs: bounds and zeros of SO3::distance; sequences of SO3 operations. *)
Require Import Reals Lra Psatz Bool List.
From Verif Require Import Lin LinFacts SO3 SO3Ops SpecGeom SO3Exp SO3ExpTrue SO3Ln SO3Misc SO3Near TrigBounds.
Import ListNotations.
Local Open Scope R_scope.

(** ** the norm of ln is at most pi *)
Lemma ln_obtuse_norm A : (m3trace A - 1) * (1 / 2) <= 0 ->
  v3norm (so3_ln_vee A) = 0 \/ v3norm (so3_ln_vee A) = snd (so3_ln A).
Proof.
  intros H. unfold so3_ln_vee, so3_ln; cbv zeta. rewrite (Rltb_ge (-1 + 1)) by lra.
  set (o := match acos_d _ with None => PI | Some o => if Rltb (PI - o) (6 / 100000000) then PI else o end).
  assert (Ho : 0 <= o).
  { unfold o. pose proof PI_gt_3. destruct (acos_d _) eqn:E; [|lra].
    destruct (Rltb _ _); [lra|]. unfold acos_d in E.
    destruct (Rle_dec _ _); [|discriminate]. destruct (Rle_dec _ _); [|discriminate].
    injection E as <-. apply acos_facts; lra. }
  set (w0 := so3_ln_col A (cos o)).
  set (w := if Rltb 0 (v3norm w0) then v3scal (o / v3norm w0) w0 else v3zero).
  cbn [fst snd].
  assert (N : v3norm w = 0 \/ v3norm w = o).
  { unfold w. destruct (Rltb 0 (v3norm w0)) eqn:E; [|left; apply v3norm_zero'].
    apply Rltb_true in E. right. rewrite v3norm_scal, Rabs_right.
    - field. lra.
    - apply Rle_ge. apply Rmult_le_pos; [auto|]. left; apply Rinv_0_lt_compat; auto. }
  assert (X : forall b : bool, v3norm (vee3 (if b then m3scal (-1) (hat3 w) else hat3 w)) = v3norm w).
  { intros []; [|rewrite vee3_hat3; reflexivity].
    rewrite <- hat3_scal, vee3_hat3, v3norm_scal, Rabs_sign; [ring|]. right; reflexivity. }
  rewrite X. exact N.
Qed.

Lemma ln_obtuse_angle A : rotation A -> (m3trace A - 1) * (1 / 2) <= 0 -> 0 <= snd (so3_ln A) <= PI.
Proof.
  intros HA H. unfold so3_ln; cbv zeta. rewrite (Rltb_ge (-1 + 1)) by lra. cbn [snd].
  pose proof PI_gt_3. destruct (acos_d _) eqn:E; [|lra].
  destruct (Rltb _ _); [lra|]. unfold acos_d in E.
  destruct (Rle_dec _ _); [|discriminate]. destruct (Rle_dec _ _); [|discriminate].
  injection E as <-. apply acos_facts; lra.
Qed.

Lemma ln_norm_le_pi A : rotation A -> v3norm (so3_ln_vee A) <= PI.
Proof.
  intros HA. pose proof PI_gt_3 as HPI.
  destruct (Rle_lt_dec ((m3trace A - 1) * (1 / 2)) 0) as [Ho|Ha].
  - pose proof (ln_obtuse_angle A HA Ho). destruct (ln_obtuse_norm A Ho) as [->| ->]; lra.
  - destruct (Req_dec (m3trace A) 3) as [E3|N3].
    { rewrite (rotation_trace3 A HA E3), ln_vee_id, v3norm_zero'. lra. }
    assert (HI : A <> m3id) by (intros ->; apply N3; unfold m3trace, m3id; cbn; ring).
    destruct (rotation_rodx_exists A HA HI) as (w & Hw & Ht & <-).
    destruct (Rlt_dec (v3norm w) (1 / 100000)).
    + unfold so3_ln_vee. rewrite ln_rodx_small by lra. cbn [fst]. rewrite vee3_hat3, v3norm_scal.
      pose proof (small_k (v3norm w) ltac:(lra)) as K.
      assert (/ 10 ^ 21 < 1) by (simpl; lra).
      rewrite Rabs_right by lra. nra.
    + unfold so3_ln_vee. rewrite ln_rodx_acute by lra. cbn [fst]. rewrite vee3_hat3. lra.
Qed.

Lemma so3_distance_le_pi A B : rotation A -> rotation B -> so3_distance A B <= PI.
Proof. intros HA HB. apply ln_norm_le_pi, rotation_mul; auto. apply rotation_tr; auto. Qed.

(** ** when is ln zero? *)
Lemma ln_zero_iff A : rotation A -> v3norm (so3_ln_vee A) = 0 ->
  A = m3id \/ fixes A (mkV3 1 1 0) \/ fixes A (mkV3 1 (-1) 0).
Proof.
  intros HA H0. pose proof PI_gt_3 as HPI.
  destruct (Req_dec (m3trace A) 3) as [E3|N3]; [left; apply rotation_trace3; auto|].
  right.
  assert (HI : A <> m3id) by (intros ->; apply N3; unfold m3trace, m3id; cbn; ring).
  destruct (rotation_rodx_exists A HA HI) as (w & Hw & Ht & Er). rewrite <- Er in *. clear A Er HA N3 HI.
  apply bad_axis_fixes; [lra|].
  destruct (Rlt_dec (v3norm w) (1 / 100000)) as [Hs|Hs].
  { exfalso. unfold so3_ln_vee in H0. rewrite ln_rodx_small in H0 by lra. cbn [fst] in H0.
    rewrite vee3_hat3, v3norm_scal in H0.
    pose proof (small_k (v3norm w) ltac:(lra)) as K.
    assert (/ 10 ^ 21 < 1) by (simpl; lra).
    rewrite Rabs_right in H0 by lra. nra. }
  destruct (Rlt_dec (v3norm w) (PI / 2)) as [Hac|Hob].
  { exfalso. unfold so3_ln_vee in H0. rewrite ln_rodx_acute in H0; try lra.
    - cbn [fst] in H0. rewrite vee3_hat3 in H0. lra.
    - apply cos_gt_0; lra. }
  assert (Hcos : cos (v3norm w) <= 0) by (apply cos_le_0; lra).
  destruct (Rlt_dec (PI - v3norm w) (6 / 100000000)) as [Hpi|Hpi].
  2:{ destruct (Req_dec (vx w * vx w) (vy w * vy w)) as [E1|N1].
      - destruct (Req_dec (vz w) 0) as [E2|N2]; [split; auto|]. exfalso.
        assert (HB : ~ bad_axis w) by (intros [_ Z]; contradiction).
        destruct (ln_rodx_obtuse w) as (s & Hs1 & _ & L); auto; try lra.
        unfold so3_ln_vee in H0. rewrite L in H0. cbn [fst] in H0.
        rewrite vee3_hat3, v3norm_scal, Rabs_sign in H0 by auto. lra.
      - exfalso. assert (HB : ~ bad_axis w) by (intros [Z _]; contradiction).
        destruct (ln_rodx_obtuse w) as (s & Hs1 & _ & L); auto; try lra.
        unfold so3_ln_vee in H0. rewrite L in H0. cbn [fst] in H0.
        rewrite vee3_hat3, v3norm_scal, Rabs_sign in H0 by auto. lra. }
  destruct (Req_dec (v3norm w) PI) as [Epi|Npi].
  { (* exactly pi *)
    destruct (Req_dec (vx w * vx w) (vy w * vy w)) as [E1|N1];
      [destruct (Req_dec (vz w) 0) as [E2|N2]; [split; auto|] | ]; exfalso.
    - assert (HB : ~ bad_axis w) by (intros [_ Z]; contradiction).
      destruct (ln_rodx_obtuse w) as (s & Hs1 & _ & L); auto; try lra.
      unfold so3_ln_vee in H0. rewrite L in H0. cbn [fst] in H0.
      rewrite vee3_hat3, v3norm_scal, Rabs_sign in H0 by auto. lra.
    - assert (HB : ~ bad_axis w) by (intros [Z _]; contradiction).
      destruct (ln_rodx_obtuse w) as (s & Hs1 & _ & L); auto; try lra.
      unfold so3_ln_vee in H0. rewrite L in H0. cbn [fst] in H0.
      rewrite vee3_hat3, v3norm_scal, Rabs_sign in H0 by auto. lra. }
  (* strictly inside the window near pi: never zero *)
  exfalso. set (o := v3norm w) in *.
  destruct (ln_obtuse_norm (rodx w)) as [_ | E].
  { rewrite rodx_tr by (fold o; lra). fold o. lra. }
  2:{ unfold so3_ln in E; cbv zeta in E. rewrite rodx_tr in E by (fold o; lra). fold o in E.
      rewrite acos_d_cos in E by lra. rewrite (Rltb_ge (-1 + 1)) in E by lra.
      rewrite (Rltb_lt (PI - o)) in E by lra. cbn [snd] in E. lra. }
  destruct (Req_dec (vx w * vx w) (vy w * vy w)) as [E1|N1];
    [destruct (Rlt_dec (vz w * vz w) (vx w * vx w)) as [L1|L1]|].
  - (* tie: the third column is read; its last entry is positive *)
    assert (Hz : v3norm (so3_ln_vee (rodx w)) = PI); [|lra].
    assert (HR : rodx w = rod (sin o / o) ((1 - cos o) / (o * o)) w) by reflexivity.
    set (c1 := sin o / o) in *. set (c2 := (1 - cos o) / (o * o)) in *.
    assert (Hc2 : 0 < c2) by (unfold c2; apply Rdiv_lt_0_compat; nra).
    assert (Hcm : -1 < cos o) by (rewrite <- cos_PI; apply cos_decreasing_1; lra).
    assert (Hoo : v3sqn w = o * o) by (symmetry; apply v3norm_sq).
    assert (Hc2o : c2 * (o * o) = 1 - cos o) by (unfold c2; field; lra).
    assert (Hcol : 0 < v3norm (so3_ln_col (rod c1 c2 w) (-1))).
    { apply norm_pos. intros Z.
      assert (Zz : vz (so3_ln_col (rod c1 c2 w) (-1)) = c2 * (vz w * vz w) + (1 + cos o)).
      { unfold so3_ln_col. destruct w as [x y z]. cbn [vx vy vz] in *.
        assert (X1 : a00 (rod c1 c2 (mkV3 x y z)) = a11 (rod c1 c2 (mkV3 x y z))).
        { assert (D0 : a00 (rod c1 c2 (mkV3 x y z)) = 1 - c2 * (y * y + z * z)) by (unfold rod, hat3; lin_unfold; ring).
          assert (D1 : a11 (rod c1 c2 (mkV3 x y z)) = 1 - c2 * (x * x + z * z)) by (unfold rod, hat3; lin_unfold; ring).
          rewrite D0, D1, E1. reflexivity. }
        rewrite X1, (Rltb_ge (a11 (rod c1 c2 (mkV3 x y z))) (a11 (rod c1 c2 (mkV3 x y z)))) by lra.
        cbn [andb vz].
        assert (D2 : a22 (rod c1 c2 (mkV3 x y z)) = 1 - c2 * (x * x + y * y)) by (unfold rod, hat3; lin_unfold; ring).
        rewrite D2. unfold v3sqn, v3dot in Hoo; cbn in Hoo. rewrite <- Hoo in Hc2o. lra. }
      rewrite Z in Zz. cbn in Zz. assert (0 <= c2 * (vz w * vz w)) by (apply Rmult_le_pos; nra). lra. }
    destruct (ln_obtuse_norm (rodx w)) as [_|E]; [| |].
    + rewrite rodx_tr by (fold o; lra). fold o. lra.
    + (* compute the norm directly *)
      unfold so3_ln_vee, so3_ln; cbv zeta. rewrite rodx_tr by (fold o; lra). fold o.
      rewrite acos_d_cos by lra. rewrite (Rltb_ge (-1 + 1)) by lra. rewrite (Rltb_lt (PI - o)) by lra.
      rewrite cos_PI, HR. rewrite (Rltb_lt 0 (v3norm (so3_ln_col (rod c1 c2 w) (-1)))) by auto.
      set (u := so3_ln_col (rod c1 c2 w) (-1)) in *. cbn [fst].
      assert (X : forall (b : bool) x, v3norm (vee3 (if b then m3scal (-1) (hat3 x) else hat3 x)) = v3norm x).
      { intros [] x; [|rewrite vee3_hat3; reflexivity].
        rewrite <- hat3_scal, vee3_hat3, v3norm_scal, Rabs_sign; [ring|]. right; reflexivity. }
      rewrite X, v3norm_scal, Rabs_right.
      * field. lra.
      * apply Rle_ge, Rmult_le_pos; [lra|]. left; apply Rinv_0_lt_compat; auto.
    + unfold so3_ln in E; cbv zeta in E. rewrite rodx_tr in E by (fold o; lra). fold o in E.
      rewrite acos_d_cos in E by lra. rewrite (Rltb_ge (-1 + 1)) in E by lra.
      rewrite (Rltb_lt (PI - o)) in E by lra. cbn [snd] in E. exact E.
  - destruct (ln_near_pi w) as [K _]; [fold o; lra | intros [_ [? _]]; contradiction |].
    pose proof (v3norm_le_sub w (so3_ln_vee (rodx w))) as T. rewrite v3norm_sub_sym in T. fold o in T. lra.
  - destruct (ln_near_pi w) as [K _]; [fold o; lra | intros [? [? _]]; contradiction |].
    pose proof (v3norm_le_sub w (so3_ln_vee (rodx w))) as T. rewrite v3norm_sub_sym in T. fold o in T. lra.
Qed.

Lemma so3_distance_zero A B : rotation A -> rotation B -> so3_distance A B = 0 ->
  A = B \/ fixes (m3mul A (m3tr B)) (mkV3 1 1 0) \/ fixes (m3mul A (m3tr B)) (mkV3 1 (-1) 0).
Proof.
  intros HA HB H. unfold so3_distance, so3_mul, so3_inv in H.
  destruct (ln_zero_iff (m3mul A (m3tr B))) as [E|E]; auto.
  { apply rotation_mul; auto; apply rotation_tr; auto. }
  left. rewrite <- (m3mul_id_l B), <- E, m3mul_assoc, (rotation_linv B HB), m3mul_id_r. reflexivity.
Qed.

(** ** sequences of operations *)
Lemma so3_update_ok dw : dw = v3zero \/ 1 / 100000 <= v3norm dw -> rotation (so3_of_vec dw).
Proof.
  intros [->|H]; [rewrite so3_exp_zero; apply rotation_id | apply so3_exp_rotation; auto].
Qed.
Lemma so3_run_rotation ops : Forall so3_op_ok ops -> forall A, rotation A -> rotation (so3_run A ops).
Proof.
  unfold so3_run. induction ops as [|op ops IH]; intros F A HA; cbn; auto.
  inversion F; subst. apply IH; auto.
  destruct op; cbn in *; unfold so3_mul, so3_inv, so3_update_lhs, so3_update_rhs;
    auto using rotation_mul, rotation_tr, so3_update_ok.
Qed.

(** ** drift under arbitrary sequences *)
Lemma near_rotation_exact A e : 0 <= e -> rotation A -> near_rotation e A.
Proof.
  intros He HA. split; [destruct HA as [_ ->]; lra|]. intros v. rewrite (rotation_sqn A v HA).
  pose proof (v3sqn_nonneg v). nra.
Qed.
Lemma near_rotation_mul a b A B : 0 <= a <= 1 -> 0 <= b -> near_rotation a A -> near_rotation b B ->
  near_rotation (a + b) (m3mul A B).
Proof.
  intros Ha Hb [DA NA] [DB NB]. split; [rewrite m3det_mul; apply Rmult_lt_0_compat; auto|].
  intros v. rewrite m3app_mul. specialize (NA (m3app B v)). specialize (NB v).
  pose proof (v3sqn_nonneg v) as Hv. split; [|lra].
  eapply Rle_trans; [|apply NA].
  assert ((1 - a) * ((1 - b) * v3sqn v) <= (1 - a) * v3sqn (m3app B v)) by (apply Rmult_le_compat_l; lra).
  nra.
Qed.
Lemma near_rotation_tr a A : 0 <= a < 1 -> near_rotation a A -> near_rotation a (m3tr A).
Proof.
  intros Ha [DA NA]. split; [rewrite m3det_tr; auto|]. intros v.
  pose proof (v3sqn_nonneg v) as Hv.
  assert (NN : forall w, v3norm (m3app A w) <= v3norm w).
  { intros w. unfold v3norm. apply sqrt_le_1_alt, NA. }
  (* upper *)
  set (t := m3app (m3tr A) v).
  assert (Et : v3sqn t = v3dot v (m3app A t)).
  { unfold t at 1. unfold v3sqn. rewrite v3dot_app, m3tr_tr. reflexivity. }
  split.
  - (* v = A u *)
    set (u := v3scal (/ m3det A) (m3app (m3adj A) v)).
    assert (Eu : m3app A u = v).
    { unfold u. replace (m3app A (v3scal (/ m3det A) (m3app (m3adj A) v)))
        with (v3scal (/ m3det A) (m3app (m3mul A (m3adj A)) v)).
      - rewrite m3adj_r. set (d := m3det A) in *. clearbody d. lin_destruct. lin_unfold. apply v3_eq; field; lra.
      - rewrite m3app_mul. generalize (m3app (m3adj A) v), (/ m3det A). clear. lin. }
    assert (D : v3dot t u = v3sqn v).
    { unfold t. rewrite v3dot_app, m3tr_tr, Eu. reflexivity. }
    pose proof (v3_cauchy t u) as C. rewrite D in C.
    pose proof (NA u) as [Lu _]. rewrite Eu in Lu.
    pose proof (v3norm_nonneg t). pose proof (v3norm_nonneg u).
    rewrite <- (v3norm_sq t). rewrite <- (v3norm_sq u) in Lu.
    (* |v|^2 <= |t||u| and (1-a)|u|^2 <= |v|^2 *)
    destruct (Req_dec (v3sqn v) 0) as [E0|N0].
    { rewrite E0. nra. }
    assert (Hu : 0 < v3norm u) by (destruct (Req_dec (v3norm u) 0) as [E|]; [rewrite E in C; nra | lra]).
    set (nt := v3norm t) in *. set (nu := v3norm u) in *. set (s := v3sqn v) in *.
    apply Rmult_le_reg_r with (nu * nu); [nra|].
    assert (s * s <= (nt * nu) * (nt * nu)) by (apply Rmult_le_compat; lra).
    assert (s * ((1 - a) * (nu * nu)) <= s * s) by (apply Rmult_le_compat_l; lra).
    nra.
  - pose proof (v3_cauchy v (m3app A t)) as C. rewrite <- Et in C.
    pose proof (NN t) as B. pose proof (v3norm_nonneg v). pose proof (v3norm_nonneg t).
    pose proof (v3norm_nonneg (m3app A t)).
    rewrite <- (v3norm_sq t) in *. rewrite <- (v3norm_sq v).
    assert (C2 : v3norm t * v3norm t <= v3norm v * v3norm t).
    { eapply Rle_trans; [exact C|]. apply Rmult_le_compat_l; auto. }
    destruct (Rle_lt_dec (v3norm t) (v3norm v)); nra.
Qed.
Lemma near_rotation_exp w : near_rotation (/ 10 ^ 30) (so3_of_vec w).
Proof.
  assert (P30 : 0 < / 10 ^ 30) by (apply Rinv_0_lt_compat, pow_lt; lra).
  destruct (Rlt_dec (v3norm w) (1 / 100000)) as [Hs|Hb].
  2:{ apply near_rotation_exact; [lra|]. apply so3_exp_rotation; lra. }
  pose proof (so3_exp_near_rotation w) as [_ D].
  split.
  { assert (D' := Rabs_def2 (m3det (so3_of_vec w) - 1) 1 ltac:(simpl in *; lra)). lra. }
  intros v. rewrite so3_of_vec_rod. unfold so3_exp_c1, so3_exp_c2. rewrite (Rltb_lt _ _ Hs).
  pose proof (small_o2 w Hs) as Ho2. pose proof (small_defect (v3sqn w) ltac:(lra)) as Hk. cbv zeta in Hk.
  set (c1 := 1 - v3sqn w / 6) in *. set (c2 := 1 / 2 - v3sqn w / 24) in *.
  set (k := 2 * c2 - c1 * c1 - c2 * c2 * v3sqn w) in *.
  assert (E : v3sqn (m3app (rod c1 c2 w) v) = v3sqn v - k * v3sqn (v3cross w v)).
  { unfold v3sqn at 1. rewrite v3dot_app, <- m3app_mul, rod_orth. fold k. clearbody k c1 c2. clear.
    unfold hat3. lina. }
  rewrite E.
  assert (C : 0 <= v3sqn (v3cross w v) <= v3sqn w * v3sqn v).
  { split; [apply v3sqn_nonneg|].
    assert (X : v3sqn w * v3sqn v - v3dot w v * v3dot w v = v3sqn (v3cross w v)) by lina. nra. }
  pose proof (v3sqn_nonneg v) as Hv. set (s := v3sqn v) in *. set (o2 := v3sqn w) in *.
  set (x := v3sqn (v3cross w v)) in *. split; [|nra].
  assert (k * x <= k * (o2 * s)) by (apply Rmult_le_compat_l; lra).
  assert (K1 : k * o2 <= / 10 ^ 30).
  { assert (o2 * o2 <= 1 / 100000000000000000000) by nra.
    assert (k <= 1 / 100000000000000000000) by lra.
    assert (k * o2 <= 1 / 100000000000000000000 * (1 / 10000000000)) by (apply Rmult_le_compat; lra).
    simpl; lra. }
  assert (k * o2 * s <= / 10 ^ 30 * s) by (apply Rmult_le_compat_r; lra). nra.
Qed.
Lemma so3_run_near ops : Forall so3_op_rot ops -> forall A e, 0 <= e -> near_rotation e A ->
  e + INR (length ops) * / 10 ^ 30 < 1 ->
  near_rotation (e + INR (length ops) * / 10 ^ 30) (so3_run A ops).
Proof.
  assert (P30 : 0 < / 10 ^ 30) by (apply Rinv_0_lt_compat, pow_lt; lra).
  unfold so3_run. induction ops as [|op ops IH]; intros F A e He HA HN.
  - cbn. cbn in HN. replace (e + 0 * _) with e by ring. exact HA.
  - inversion F; subst. cbn [length] in *. rewrite S_INR in *.
    pose proof (pos_INR (length ops)) as HP.
    assert (HP2 : 0 <= INR (length ops) * / 10 ^ 30) by (apply Rmult_le_pos; lra).
    replace (e + (INR (length ops) + 1) * / 10 ^ 30) with ((e + / 10 ^ 30) + INR (length ops) * / 10 ^ 30) in * by ring.
    cbn [fold_left]. apply IH; auto; [lra|].
    assert (Wk : near_rotation e A -> near_rotation (e + / 10 ^ 30) A).
    { intros [D N]; split; auto. intros v. specialize (N v). pose proof (v3sqn_nonneg v). split; [|lra].
      assert (0 <= / 10 ^ 30 * v3sqn v) by (apply Rmult_le_pos; lra). lra. }
    destruct op; cbn in *; unfold so3_mul, so3_inv, so3_update_lhs, so3_update_rhs.
    + apply near_rotation_mul; auto; try lra. apply near_rotation_exact; auto; lra.
    + rewrite Rplus_comm. apply near_rotation_mul; auto; try (simpl; lra). apply near_rotation_exact; auto; lra.
    + apply near_rotation_tr; auto; lra.
    + rewrite Rplus_comm. apply near_rotation_mul; auto; try (simpl; lra). apply near_rotation_exp.
    + apply near_rotation_mul; auto; try lra. apply near_rotation_exp.
Qed.
Lemma so3_run_near_rotation ops A : rotation A -> Forall so3_op_rot ops ->
  INR (length ops) * / 10 ^ 30 < 1 ->
  near_rotation (INR (length ops) * / 10 ^ 30) (so3_run A ops).
Proof.
  intros HA F H. rewrite <- (Rplus_0_l (INR (length ops) * / 10 ^ 30)).
  apply so3_run_near; auto; try lra. apply near_rotation_exact; auto; lra.
Qed.
