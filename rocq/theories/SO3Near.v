(** ln and exp inside the two windows where the code switches to approximations:
    angle below 1e-5 and angle within 6e-8 of pi. *)
Require Import Reals Lra Psatz Bool.
From Verif Require Import Lin LinFacts SO3 SpecGeom SO3Exp SO3ExpTrue SO3Ln TrigBounds.
Local Open Scope R_scope.

(** ** vector norm inequalities *)
Lemma v3_cauchy u v : v3dot u v <= v3norm u * v3norm v.
Proof.
  apply Rsqr_incr_0_var.
  2:{ apply Rmult_le_pos; apply v3norm_nonneg. }
  unfold Rsqr.
  replace (v3norm u * v3norm v * (v3norm u * v3norm v)) with ((v3norm u * v3norm u) * (v3norm v * v3norm v)) by ring.
  rewrite !v3norm_sq.
  assert (E : v3sqn u * v3sqn v - v3dot u v * v3dot u v = v3sqn (v3cross u v)) by lina.
  pose proof (v3sqn_nonneg (v3cross u v)). lra.
Qed.
Lemma v3norm_triangle u v : v3norm (v3add u v) <= v3norm u + v3norm v.
Proof.
  pose proof (v3norm_nonneg u). pose proof (v3norm_nonneg v).
  apply Rsqr_incr_0_var; [|lra]. unfold Rsqr. rewrite v3norm_sq.
  replace (v3sqn (v3add u v)) with (v3sqn u + v3sqn v + 2 * v3dot u v) by lina.
  rewrite <- (v3norm_sq u), <- (v3norm_sq v). pose proof (v3_cauchy u v). nra.
Qed.
Lemma v3norm_sub_sym u v : v3norm (v3sub u v) = v3norm (v3sub v u).
Proof. rewrite <- v3norm_opp. f_equal. lina. Qed.
Lemma v3norm_le_sub u v : v3norm u <= v3norm v + v3norm (v3sub u v).
Proof.
  eapply Rle_trans; [|apply v3norm_triangle]. right. f_equal. lina.
Qed.
Lemma v3norm_diff u v : Rabs (v3norm u - v3norm v) <= v3norm (v3sub u v).
Proof.
  pose proof (v3norm_le_sub u v). pose proof (v3norm_le_sub v u).
  rewrite (v3norm_sub_sym v u) in *. apply Rabs_le. lra.
Qed.
Lemma v3_within_norm e u : v3norm u <= e -> v3_within e u.
Proof.
  intros H. pose proof (comp_le_norm u) as (X & Y & Z). unfold v3_within. lra.
Qed.

Lemma m3scal_scal a b A : m3scal a (m3scal b A) = m3scal (a * b) A.
Proof. lina. Qed.

(** ** the window near zero *)
Lemma small_k o : 0 < o < 1 / 100000 ->
  1 - / 10 ^ 21 <= (1 + o * o / 6) * (sin o / o) <= 1.
Proof.
  intros H. pose proof PI_gt_3.
  pose proof (sin_taylor5 o) as [L U]; [lra|].
  assert (A : 1 - o * o / 6 <= sin o / o <= 1 - o * o / 6 + o^4 / 120).
  { split; apply Rmult_le_reg_r with o; try lra; unfold Rdiv; rewrite ?Rmult_assoc, ?Rinv_l, ?Rmult_1_r by lra.
    - replace ((1 - o * (o * / 6)) * o) with (o - o ^ 3 / 6) by field. lra.
    - replace ((1 - o * (o * / 6) + o ^ 4 * / 120) * o) with (o - o ^ 3 / 6 + o^5/120) by field. lra. }
  set (q := o * o) in *. assert (Q : 0 < q <= 1 / 10000000000) by (unfold q; nra).
  replace (o ^ 4) with (q * q) in A by (unfold q; ring).
  assert (Q2 : q * q <= 1 / 100000000000000000000) by nra.
  assert (Q3 : 0 < q * q) by nra.
  assert (Q4 : q * q * q <= q * q) by nra.
  set (sc := sin o / o) in *. clearbody sc q. split.
  - assert ((1 + q / 6) * (1 - q / 6) <= (1 + q / 6) * sc) by (apply Rmult_le_compat_l; lra).
    simpl; lra.
  - assert ((1 + q / 6) * sc <= (1 + q / 6) * (1 - q / 6 + q * q / 120)) by (apply Rmult_le_compat_l; lra).
    lra.
Qed.

Lemma ln_rodx_small w : 0 < v3norm w < 1 / 100000 ->
  so3_ln (rodx w) =
    (hat3 (v3scal ((1 + v3norm w * v3norm w / 6) * (sin (v3norm w) / v3norm w)) w), v3norm w).
Proof.
  intros H. pose proof PI_gt_3. unfold so3_ln; cbv zeta. rewrite rodx_tr by lra.
  rewrite acos_d_cos by lra. assert (0 < cos (v3norm w)) by (apply cos_gt_0; lra).
  rewrite (Rltb_lt (-1 + 1)) by lra.
  rewrite Rltb_lt by lra. f_equal. unfold rodx. rewrite rod_skew_part, hat3_scal.
  rewrite m3scal_scal. f_equal. field. lra.
Qed.

Lemma ln_exp_small w : 0 < v3norm w < 1 / 100000 ->
  v3_within (/ 10 ^ 26) (v3sub (so3_ln_vee (so3_of_vec w)) w) /\
  Rabs (snd (so3_ln (so3_of_vec w)) - v3norm w) <= / 10 ^ 25.
Proof.
  intros H. pose proof PI_gt_3 as HPI. set (o := v3norm w) in *.
  rewrite so3_of_vec_rod. unfold so3_exp_c1, so3_exp_c2. fold o.
  rewrite (Rltb_lt o) by lra. rewrite <- v3norm_sq. fold o.
  set (q := o * o). assert (Q : 0 < q <= 1 / 10000000000) by (unfold q; nra).
  set (c1 := 1 - q / 6). set (c2 := 1 / 2 - q / 24).
  set (c := 1 - q / 2 + q * q / 24).
  assert (Etr : (m3trace (rod c1 c2 w) - 1) * (1 / 2) = c).
  { rewrite rod_trace, <- v3norm_sq. fold o. unfold c2, c, q. field. }
  assert (Q2 : 0 < q * q <= q / 10000000000) by nra.
  assert (Hc : -1 <= c <= 1) by (unfold c; lra).
  destruct (acos_facts c Hc) as [Hp Ecp]. set (p := acos c) in *.
  assert (Hpo : p <= o).
  { destruct (Rle_lt_dec p o); auto. exfalso.
    assert (cos p < cos o) by (apply cos_decreasing_1; lra).
    pose proof (cos_taylor4 o ltac:(lra)) as [_ U]. 
    replace (1 - o ^ 2 / 2 + o ^ 4 / 24) with c in U by (unfold c, q; field). lra. }
  assert (Hln : so3_ln (rod c1 c2 w) = (hat3 (v3scal ((1 + p * p / 6) * c1) w), p)).
  { unfold so3_ln; cbv zeta. rewrite Etr. unfold acos_d.
    destruct (Rle_dec (-1) c); [|lra]. destruct (Rle_dec c 1); [|lra]. fold p.
    rewrite Rltb_lt by (unfold c; lra). rewrite Rltb_lt by lra.
    f_equal. rewrite rod_skew_part, hat3_scal, m3scal_scal. f_equal. field. }
  unfold so3_ln_vee. rewrite Hln. cbn [fst snd]. rewrite vee3_hat3.
  (* how far p is from o *)
  set (q' := p * p). assert (Q' : 0 <= q' <= q) by (unfold q', q; nra).
  pose proof (cos_taylor6 p ltac:(lra)) as L.
  replace (1 - p ^ 2 / 2 + p ^ 4 / 24 - p ^ 6 / 720) with (1 - q' / 2 + q' * q' / 24 - q' * q' * q' / 720) in L
    by (unfold q'; field).
  rewrite Ecp in L. unfold c in L.
  assert (D : (q - q') * (1 / 2 - (q + q') / 24) <= q' * q' * q' / 720) by lra.
  assert (D0 : (q - q') * (1 / 4) <= q' * q' * q' / 720).
  { eapply Rle_trans; [|exact D]. apply Rmult_le_compat_l; lra. }
  assert (T1 : q' * q' <= 1 / 100000000000000000000) by nra.
  assert (T2 : q' * q' * q' <= 1 / 1000000000000000000000000000000) by nra.
  assert (D1 : 0 <= q - q' <= 1 / 100000000000000000000000000000000) by lra.
  split.
  - set (k := (1 + q' / 6) * c1).
    assert (Hk : - / 10 ^ 21 <= k - 1 <= 0).
    { unfold k, c1. assert (0 <= q' * q <= 1 / 100000000000000000000) by nra. simpl; lra. }
    assert (Ev : v3sub (v3scal k w) w = v3scal (k - 1) w) by lina.
    rewrite Ev. apply v3_within_norm. rewrite v3norm_scal. fold o.
    assert (Rabs (k - 1) <= / 10 ^ 21) by (apply Rabs_le; lra).
    assert (Rabs (k - 1) * o <= / 10 ^ 21 * (1 / 100000)).
    { apply Rmult_le_compat; try lra. apply Rabs_pos. }
    simpl in *; lra.
  - (* |p - o| *)
    assert (Hd : 0 <= o - p) by lra.
    assert (E : (o - p) * (o + p) = q - q') by (unfold q, q'; ring).
    assert (Hsq : (o - p) * (o - p) <= q - q').
    { rewrite <- E. apply Rmult_le_compat_l; lra. }
    destruct (Rle_lt_dec (1 / 10000000) o) as [Hbig|Hsm].
    + assert ((o - p) * (1 / 10000000) <= q - q') by (rewrite <- E; apply Rmult_le_compat_l; lra).
      rewrite Rabs_left1 by lra. simpl; lra.
    + (* for a very small o use the cubic bound itself *)
      assert (Hq3 : q' * q' * q' <= q' * (q * q)).
      { assert (q' * q' <= q * q) by nra. assert (0 <= q') by lra. nra. }
      assert (B : (o - p) * (o + p) <= q * q * q / 180).
      { rewrite E. assert (q' * (q * q) <= q * (q * q)) by (apply Rmult_le_compat_r; nra). lra. }
      assert (B2 : (o - p) * o <= q * q * q / 180).
      { eapply Rle_trans; [|exact B]. apply Rmult_le_compat_l; lra. }
      assert (B3 : o - p <= o * q * q / 180).
      { apply Rmult_le_reg_r with o; [lra|]. eapply Rle_trans; [exact B2|]. right. unfold q. field. }
      assert (q <= 1 / 100000000000000).
      { unfold q. nra. }
      assert (q * q <= 1 / 10000000000000000000000000000) by nra.
      assert (o * (q * q) <= 1 / 10000000 * (1 / 10000000000000000000000000000)).
      { apply Rmult_le_compat; lra. }
      rewrite Rabs_left1 by lra. simpl; lra.
Qed.

(** exp(ln A) for rotations of angle below 1e-5 *)
Lemma exp_ln_small A w : rodx w = A -> 0 < v3norm w < 1 / 100000 ->
  m3_within (/ 10 ^ 24) (m3sub (so3_exp (fst (so3_ln A))) A) /\ snd (so3_ln A) = v3norm w.
Proof.
  intros <- H. rewrite (ln_rodx_small w H). cbn [fst snd]. split; [|reflexivity].
  set (o := v3norm w) in *. pose proof (small_k o H) as Hk.
  set (k := (1 + o * o / 6) * (sin o / o)) in *.
  change (so3_exp (hat3 (v3scal k w))) with (so3_of_vec (v3scal k w)).
  assert (P21 : 0 < / 10 ^ 21 < 1 / 1000) by (simpl; lra).
  assert (Hn : v3norm (v3scal k w) = k * o) by (rewrite v3norm_scal, Rabs_right; [reflexivity|lra]).
  assert (Hko : 0 < k * o <= o) by (split; nra).
  rewrite so3_of_vec_rod, rod_scal. rewrite <- v3norm_sq, Hn.
  unfold so3_exp_c1, so3_exp_c2. rewrite Rltb_lt by lra.
  pose proof (small_sinc o H) as S1. pose proof (small_cosc o H) as S2.
  unfold rodx. fold o.
  assert (Hk2 : 1 - 2 * / 10 ^ 21 <= k * k <= 1) by (split; nra).
  assert (Ho2 : 0 < o * o <= 1 / 10000000000) by nra.
  apply m3_within_le with ((2 / 10 ^ 20) * v3norm w + (2 / 10 ^ 20) * v3sqn w).
  { rewrite <- v3norm_sq. fold o.
    assert (2 / 10 ^ 20 * o <= 2 / 10 ^ 20 * (1 / 100000)) by (apply Rmult_le_compat_l; [simpl; lra | lra]).
    assert (2 / 10 ^ 20 * (o * o) <= 2 / 10 ^ 20 * (1 / 10000000000)) by (apply Rmult_le_compat_l; [simpl; lra | lra]).
    simpl in *; lra. }
  set (e := / 10 ^ 21) in *.
  assert (Ee : / 10 ^ 22 = e / 10) by (unfold e; simpl; lra).
  assert (E20 : 2 / 10 ^ 20 = 20 * e) by (unfold e; simpl; lra).
  rewrite Ee in S1, S2. rewrite E20.
  replace (k * o * (k * o)) with (k * k * (o * o)) by ring.
  set (m := k * k) in *. set (q := o * o) in *.
  set (sc := sin o / o) in *. set (cc := (1 - cos o) / q) in *.
  assert (S1' := Rabs_def2 (1 - q / 6 - sc) (e / 5) ltac:(lra)).
  assert (S2' := Rabs_def2 (1 / 2 - q / 24 - cc) (e / 5) ltac:(lra)).
  assert (Hmq : (1 - 2 * e) * q <= m * q <= q) by (split; nra).
  clearbody e m q. clear Ee E20 S1 S2.
  apply rod_diff_within; apply Rabs_le.
  - assert (F : (1 - m * q / 6) * k - sc = (1 - q / 6 - sc) + (1 - m * q / 6) * (k - 1) + q * (1 - m) / 6) by field.
    rewrite F.
    assert (- e <= (1 - m * q / 6) * (k - 1) <= 0) by (split; nra).
    assert (0 <= q * (1 - m) <= 2 * e) by (split; nra). lra.
  - assert (F : (1 / 2 - m * q / 24) * m - cc = (1 / 2 - q / 24 - cc) + (1 / 2 - m * q / 24) * (m - 1) + q * (1 - m) / 24) by field.
    rewrite F.
    assert (- (2 * e) <= (1 / 2 - m * q / 24) * (m - 1) <= 0) by (split; nra).
    assert (0 <= q * (1 - m) <= 2 * e) by (split; nra). lra.
Qed.

(** ** the window near pi *)

(** normalising a vector close to a positive multiple of a unit vector *)
Lemma normalize_close a n l : 0 < l -> 0 < v3norm a -> v3norm n = 1 ->
  v3norm (v3sub (v3scal (/ v3norm a) a) n) <= 2 * v3norm (v3sub a (v3scal l n)) / l.
Proof.
  intros Hl Ha Hn. set (d := v3sub a (v3scal l n)).
  assert (E : v3sub (v3scal (/ v3norm a) a) n =
              v3add (v3scal ((l - v3norm a) * / (v3norm a * l)) a) (v3scal (/ l) d)).
  { set (na := v3norm a) in *. unfold d. clearbody na. lin_destruct. lin_unfold. apply v3_eq; field; lra. }
  rewrite E. eapply Rle_trans; [apply v3norm_triangle|]. rewrite !v3norm_scal.
  assert (Il : 0 < / l) by (apply Rinv_0_lt_compat; auto).
  assert (Ia : 0 < / v3norm a) by (apply Rinv_0_lt_compat; auto).
  rewrite Rabs_mult, Rinv_mult.
  rewrite (Rabs_right (/ v3norm a * / l)) by nra. rewrite (Rabs_right (/ l)) by lra.
  replace (Rabs (l - v3norm a) * (/ v3norm a * / l) * v3norm a) with (Rabs (l - v3norm a) * / l) by (field; lra).
  assert (N : Rabs (l - v3norm a) <= v3norm d).
  { pose proof (v3norm_diff a (v3scal l n)) as D. rewrite (v3norm_scal l n), Hn, (Rabs_right l) in D by lra.
    rewrite Rmult_1_r in D. rewrite Rabs_minus_sym. exact D. }
  unfold Rdiv. nra.
Qed.

(** the column read by ln when the code has replaced the angle by pi *)
Definition basis (k : nat) : V3 :=
  match k with O => mkV3 1 0 0 | S O => mkV3 0 1 0 | _ => mkV3 0 0 1 end.
Definition comp (k : nat) (w : V3) : R :=
  match k with O => vx w | S O => vy w | _ => vz w end.
Lemma ln_col_rod_pi c1 c2 w b : 0 < c2 -> b = 2 - c2 * v3sqn w ->
  exists k, so3_ln_col (rod c1 c2 w) (-1) = v3add (v3scal (c2 * comp k w) w) (v3scal b (basis k)) /\
            (v3sqn w <= 3 * (comp k w * comp k w) \/
             (vx w * vx w = vy w * vy w /\ vz w * vz w < vx w * vx w /\ comp k w = vz w)).
Proof.
  intros Hc Hb. destruct w as [x y z]. cbn [vx vy vz]. subst b.
  unfold so3_ln_col.
  set (Rm := rod c1 c2 (mkV3 x y z)).
  assert (D0 : a00 Rm = 1 - c2 * (y * y + z * z)) by (unfold Rm, rod, hat3; lin_unfold; ring).
  assert (D1 : a11 Rm = 1 - c2 * (x * x + z * z)) by (unfold Rm, rod, hat3; lin_unfold; ring).
  assert (D2 : a22 Rm = 1 - c2 * (x * x + y * y)) by (unfold Rm, rod, hat3; lin_unfold; ring).
  assert (L10 : Rltb (a11 Rm) (a00 Rm) = Rltb (y * y) (x * x)).
  { unfold Rltb; rewrite D0, D1.
    destruct (Rlt_dec (y * y) (x * x)), (Rlt_dec (1 - c2 * (x * x + z * z)) (1 - c2 * (y * y + z * z))); auto; exfalso; nra. }
  assert (L01 : Rltb (a00 Rm) (a11 Rm) = Rltb (x * x) (y * y)).
  { unfold Rltb; rewrite D0, D1.
    destruct (Rlt_dec (x * x) (y * y)), (Rlt_dec (1 - c2 * (y * y + z * z)) (1 - c2 * (x * x + z * z))); auto; exfalso; nra. }
  assert (L20 : Rltb (a22 Rm) (a00 Rm) = Rltb (z * z) (x * x)).
  { unfold Rltb; rewrite D0, D2.
    destruct (Rlt_dec (z * z) (x * x)), (Rlt_dec (1 - c2 * (x * x + y * y)) (1 - c2 * (y * y + z * z))); auto; exfalso; nra. }
  assert (L21 : Rltb (a22 Rm) (a11 Rm) = Rltb (z * z) (y * y)).
  { unfold Rltb; rewrite D1, D2.
    destruct (Rlt_dec (z * z) (y * y)), (Rlt_dec (1 - c2 * (x * x + y * y)) (1 - c2 * (x * x + z * z))); auto; exfalso; nra. }
  rewrite L10, L20, L01, L21.
  destruct (Rltb (y * y) (x * x)) eqn:Eyx; [apply Rltb_true in Eyx | apply Rltb_false in Eyx];
  destruct (Rltb (x * x) (y * y)) eqn:Exy; [apply Rltb_true in Exy | apply Rltb_false in Exy
     | apply Rltb_true in Exy | apply Rltb_false in Exy];
  destruct (Rltb (z * z) (x * x)) eqn:Ezx; (apply Rltb_true in Ezx || apply Rltb_false in Ezx);
  destruct (Rltb (z * z) (y * y)) eqn:Ezy; (apply Rltb_true in Ezy || apply Rltb_false in Ezy);
  cbn [andb]; try (exfalso; lra).
  all: first [
    exists 0%nat; split; [ unfold Rm, rod, hat3, basis, comp; lin_unfold; apply v3_eq; field | left; cbn; lin_unfold; lra ]
  | exists 1%nat; split; [ unfold Rm, rod, hat3, basis, comp; lin_unfold; apply v3_eq; field | left; cbn; lin_unfold; lra ]
  | exists 2%nat; split; [ unfold Rm, rod, hat3, basis, comp; lin_unfold; apply v3_eq; field | left; cbn; lin_unfold; lra ]
  | exists 2%nat; split; [ unfold Rm, rod, hat3, basis, comp; lin_unfold; apply v3_eq; field | right; cbn; split; [lra|split; lra] ] ].
Qed.

Lemma frob_sign x A :
  m3frob2 (m3sub (m3add m3id (hat3 x)) A) - m3frob2 (m3sub (m3sub m3id (hat3 x)) A) =
  - 4 * v3dot x (vee3 (m3sub A (m3tr A))).
Proof. geo. Qed.

Lemma ln_near_pi w : PI - 6 / 100000000 < v3norm w < PI ->
  ~ (vx w * vx w = vy w * vy w /\ vz w * vz w < vx w * vx w /\ Rabs (vz w) < 1 / 10000) ->
  v3norm (v3sub (so3_ln_vee (rodx w)) w) <= 7 / 100000000 /\ snd (so3_ln (rodx w)) = PI.
Proof.
  intros Ho Htie. pose proof PI_gt_3 as HPI. pose proof PI_4 as HPI4. set (o := v3norm w) in *.
  assert (Hoo : v3sqn w = o * o) by (symmetry; apply v3norm_sq).
  set (c1 := sin o / o). set (c2 := (1 - cos o) / (o * o)).
  assert (Hcos : -1 <= cos o <= -1 + 2 / 1000000000000000).
  { split; [apply COS_bound|].
    replace o with (PI - (PI - o)) by ring. rewrite cos_minus, cos_PI, sin_PI.
    pose proof (cos_taylor4 (PI - o) ltac:(lra)) as [L _].
    assert ((PI - o) ^ 2 <= 36 / 10000000000000000) by (simpl; nra). lra. }
  assert (Hsin : 0 < sin o) by (apply sin_gt_0; lra).
  assert (Hc1 : 0 < c1) by (apply Rdiv_lt_0_compat; lra).
  assert (Hc2 : 0 < c2) by (unfold c2; apply Rdiv_lt_0_compat; nra).
  assert (Hc2o : c2 * (o * o) = 1 - cos o) by (unfold c2; field; lra).
  set (b := 1 + cos o).
  destruct (ln_col_rod_pi c1 c2 w b Hc2) as (k & Ek & Hk); auto.
  { unfold b. rewrite Hoo, Hc2o. ring. }
  set (u := v3add (v3scal (c2 * comp k w) w) (v3scal b (basis k))) in *.
  (* n = w / o, with the sign of the chosen component *)
  set (wk := comp k w) in *.
  assert (Hb : 0 <= b <= 2 / 1000000000000000) by (unfold b; lra).
  assert (Hwk : 0 < Rabs wk).
  { apply Rabs_pos_lt. intros E. rewrite Hoo, E in Hk. destruct Hk as [Hk|(K1 & K2 & K3)]; [nra|].
    apply Htie. repeat split; auto. rewrite <- K3, Rabs_R0. lra. }
  assert (Hwk2 : wk * wk = Rabs wk * Rabs wk) by (rewrite <- Rabs_mult, Rabs_right; nra).
  assert (Hwk3 : o <= 40000 * Rabs wk).
  { rewrite Hoo, Hwk2 in Hk. destruct Hk as [Hk|(K1 & K2 & K3)].
    - destruct (Rle_lt_dec o (2 * Rabs wk)); [lra|]. nra.
    - destruct (Rlt_le_dec (Rabs wk) (1 / 10000)); [|lra]. exfalso. apply Htie. repeat split; auto. rewrite <- K3. auto. }
  assert (Hsg : exists m, (m = 1 \/ m = -1) /\ wk = m * Rabs wk).
  { unfold Rabs. destruct (Rcase_abs wk); [exists (-1)|exists 1]; split; auto; ring. }
  destruct Hsg as (m & Hm & Em).
  set (aw := Rabs wk) in *. clearbody aw.
  assert (Hmm : m * m = 1) by (destruct Hm as [->| ->]; ring).
  set (l := c2 * aw * o).
  assert (Hl : 4 / 100000 <= l).
  { unfold l. assert (c2 * (o * o) <= c2 * (40000 * aw * o)) by (apply Rmult_le_compat_l; [lra|]; apply Rmult_le_compat_r; lra).
    rewrite Hc2o in *. lra. }
  set (n := v3scal (m / o) w).
  assert (Hn : v3norm n = 1).
  { unfold n. rewrite v3norm_scal. fold o. unfold Rdiv. rewrite Rabs_mult, Rabs_sign by auto.
    rewrite Rabs_right by (apply Rle_ge; left; apply Rinv_0_lt_compat; lra). field. lra. }
  assert (Hun : v3sub u (v3scal l n) = v3scal b (basis k)).
  { assert (X : v3scal l n = v3scal (c2 * wk) w).
    { unfold n, l. rewrite Em. clear - Ho HPI. clearbody c2 o. destruct w as [wx wy wz]. lin_unfold. apply v3_eq; field; lra. }
    rewrite X. unfold u. generalize (v3scal (c2 * wk) w), (v3scal b (basis k)). lina. }
  assert (Hbk : v3norm (v3scal b (basis k)) = b).
  { rewrite v3norm_scal, Rabs_right by lra.
    replace (v3norm (basis k)) with 1; [ring|]. unfold v3norm. rewrite <- sqrt_1. f_equal.
    unfold basis; clear; destruct k as [|[|k]]; lin_unfold; ring. }
  assert (Hu0 : 0 < v3norm u).
  { pose proof (v3norm_diff u (v3scal l n)) as D. rewrite Hun, Hbk, v3norm_scal, Hn, (Rabs_right l) in D by lra.
    assert (D' := Rabs_def2 (v3norm u - l * 1) (1/100000) ltac:(lra)). lra. }
  (* the dot product with the skew part decides the sign *)
  assert (Huw : v3dot u w = 2 * wk).
  { unfold u. replace (v3dot (v3add (v3scal (c2 * wk) w) (v3scal b (basis k))) w)
      with (c2 * v3sqn w * wk + b * wk) by (unfold wk, basis, comp; destruct k as [|[|k]]; clear; lina).
    rewrite Hoo, Hc2o. unfold b. ring. }
  assert (Hln : so3_ln (rodx w) = (hat3 (v3scal (m * PI / v3norm u) u), PI)).
  { unfold so3_ln; cbv zeta. rewrite rodx_tr by (fold o; lra). fold o.
    rewrite acos_d_cos by lra. rewrite (Rltb_ge (-1 + 1)) by lra. rewrite (Rltb_lt (PI - o)) by lra.
    rewrite cos_PI. change (rodx w) with (rod c1 c2 w). rewrite Ek. rewrite (Rltb_lt 0 (v3norm u)) by auto.
    f_equal. unfold m3norm. rewrite sqrt_ltb by apply m3frob2_nonneg.
    pose proof (frob_sign (v3scal (PI / v3norm u) u) (rod c1 c2 w)) as F.
    rewrite rod_skew_part in F.
    replace (v3dot (v3scal (PI / v3norm u) u) (vee3 (m3scal (2 * c1) (hat3 w))))
      with (PI / v3norm u * (2 * c1) * v3dot u w) in F by (clear; set (h := PI / v3norm u); clearbody h; geo).
    rewrite Huw, Em in F.
    set (P := PI / v3norm u * (2 * c1)) in *.
    assert (HP : 0 < P).
    { unfold P. apply Rmult_lt_0_compat; [|lra]. apply Rdiv_lt_0_compat; lra. }
    assert (HPw : 0 < P * aw) by (apply Rmult_lt_0_compat; auto).
    destruct Hm as [-> | ->].
    - rewrite Rltb_ge by lra. rewrite Rmult_1_l. reflexivity.
    - rewrite Rltb_lt by lra. rewrite <- hat3_scal. f_equal.
      set (nu := v3norm u) in *. clearbody u nu. lin_destruct. lin_unfold. apply v3_eq; field; lra. }
  unfold so3_ln_vee. rewrite Hln. cbn [fst snd]. split; [|reflexivity]. rewrite vee3_hat3.
  (* m pi u/|u| - w = m ( pi (u/|u| - n) + (pi - o) n ) *)
  assert (E : v3sub (v3scal (m * PI / v3norm u) u) w =
              v3scal m (v3add (v3scal PI (v3sub (v3scal (/ v3norm u) u) n)) (v3scal (PI - o) n))).
  { unfold n. set (nu := v3norm u) in *. clearbody u nu. clear - Hmm HPI Ho Hu0.
    destruct u as [ux uy uz], w as [wx wy wz]. lin_unfold.
    apply v3_eq; field_simplify_eq; try lra; replace (m ^ 2) with 1 by (rewrite <- Hmm; ring); ring. }
  rewrite E, v3norm_scal, (Rabs_sign m Hm), Rmult_1_l.
  eapply Rle_trans; [apply v3norm_triangle|]. rewrite !v3norm_scal, Hn.
  rewrite (Rabs_right PI), (Rabs_right (PI - o)) by lra.
  pose proof (normalize_close u n l ltac:(lra) Hu0 Hn) as NC. rewrite Hun, Hbk in NC.
  assert (2 * b / l <= 1 / 10000000000).
  { apply Rmult_le_reg_r with l; [lra|]. unfold Rdiv at 1. rewrite Rmult_assoc, Rinv_l, Rmult_1_r by lra. nra. }
  assert (PI * v3norm (v3sub (v3scal (/ v3norm u) u) n) <= 4 * (1 / 10000000000)).
  { apply Rmult_le_compat; try lra. apply v3norm_nonneg. }
  lra.
Qed.

(** on the tie the result is far off: half turns (nearly) about (1,1,0) come out
    as half turns about z *)
Lemma ln_near_pi_bad w : PI - 6 / 100000000 < v3norm w < PI -> bad_axis w ->
  exists s, (s = 1 \/ s = -1) /\ so3_ln (rodx w) = (hat3 (mkV3 0 0 (s * PI)), PI).
Proof.
  intros Ho [Hxy Hz]. pose proof PI_gt_3 as HPI. set (o := v3norm w) in *.
  assert (Hoo : v3sqn w = o * o) by (symmetry; apply v3norm_sq).
  set (c1 := sin o / o). set (c2 := (1 - cos o) / (o * o)).
  assert (Hcos0 : cos o < 0) by (apply cos_lt_0; lra).
  assert (Hc1b : -1 < cos o).
  { rewrite <- cos_PI. apply cos_decreasing_1; lra. }
  assert (Hc2o : c2 * (o * o) = 1 - cos o) by (unfold c2; field; lra).
  assert (Ecol : so3_ln_col (rod c1 c2 w) (-1) = mkV3 0 0 (1 + cos o)).
  { destruct w as [x y z]. cbn [vx vy vz] in *. subst z.
    assert (Ex : x * x = o * o / 2) by (unfold v3sqn, v3dot in Hoo; cbn in Hoo; lra).
    assert (X1 : a00 (rod c1 c2 (mkV3 x y 0)) = a11 (rod c1 c2 (mkV3 x y 0))).
    { assert (D0 : a00 (rod c1 c2 (mkV3 x y 0)) = 1 - c2 * (y * y)) by (unfold rod, hat3; lin_unfold; ring).
      assert (D1 : a11 (rod c1 c2 (mkV3 x y 0)) = 1 - c2 * (x * x)) by (unfold rod, hat3; lin_unfold; ring).
      rewrite D0, D1, Hxy. reflexivity. }
    unfold so3_ln_col. rewrite X1. rewrite (Rltb_ge (a11 (rod c1 c2 (mkV3 x y 0))) (a11 (rod c1 c2 (mkV3 x y 0)))) by lra.
    cbn [andb].
    assert (D2 : a22 (rod c1 c2 (mkV3 x y 0)) = 1 - c2 * (x * x + y * y)) by (unfold rod, hat3; lin_unfold; ring).
    rewrite D2, <- Hxy, Ex. apply v3_eq; [| | lra]; unfold rod, hat3; lin_unfold; field. }
  exists 1. split; [auto|].
  unfold so3_ln; cbv zeta. rewrite rodx_tr by (fold o; lra). fold o.
  rewrite acos_d_cos by lra. rewrite (Rltb_ge (-1 + 1)) by lra. rewrite (Rltb_lt (PI - o)) by lra.
  rewrite cos_PI. change (rodx w) with (rod c1 c2 w). rewrite Ecol.
  assert (En : v3norm (mkV3 0 0 (1 + cos o)) = 1 + cos o).
  { unfold v3norm. lin_unfold. replace (0 * 0 + 0 * 0 + (1 + cos o) * (1 + cos o)) with (Rsqr (1 + cos o)) by (unfold Rsqr; ring).
    apply sqrt_Rsqr. lra. }
  rewrite En, (Rltb_lt 0) by lra.
  assert (Es : v3scal (PI / (1 + cos o)) (mkV3 0 0 (1 + cos o)) = mkV3 0 0 (1 * PI)).
  { lin_unfold. apply v3_eq; field; lra. }
  rewrite Es. f_equal. unfold m3norm. rewrite sqrt_ltb by apply m3frob2_nonneg.
  pose proof (frob_sign (mkV3 0 0 (1 * PI)) (rod c1 c2 w)) as F. rewrite rod_skew_part in F.
  replace (v3dot (mkV3 0 0 (1 * PI)) (vee3 (m3scal (2 * c1) (hat3 w)))) with 0 in F.
  2:{ destruct w as [x y z]. cbn [vz] in Hz. subst z. clearbody c1. unfold vee3, hat3. lin_unfold. ring. }
  rewrite Rltb_ge by lra. reflexivity.
Qed.
