(** Proofs about SO3::ln: exact inverse of exp away from the thresholds, and the
    exact set where it fails. *)
Require Import Reals Lra Psatz Bool.
From Verif Require Import Lin LinFacts SO3 SpecGeom SO3Exp TrigBounds.
Local Open Scope R_scope.

(** the rotation by angle |w| about w, in Rodrigues form *)
Definition rodx (w : V3) : M3 :=
  rod (sin (v3norm w) / v3norm w) ((1 - cos (v3norm w)) / (v3norm w * v3norm w)) w.

Lemma so3_of_vec_rodx w : 1 / 100000 <= v3norm w -> so3_of_vec w = rodx w.
Proof.
  intros H. destruct (norm_big_facts w H) as (Hp & Hs & H1 & H2).
  rewrite so3_of_vec_rod, H1, H2; reflexivity.
Qed.
Lemma rodx_rotation w : 0 < v3norm w -> rotation (rodx w).
Proof.
  intros H. apply rod_exact_rotation. rewrite <- v3norm_sq. apply exact_coeffs; lra.
Qed.

(** axes on which the column selection of SO3::ln fails *)
Definition bad_axis (w : V3) : Prop := vx w * vx w = vy w * vy w /\ vz w = 0.

Lemma acos_d_cos o : 0 <= o <= PI -> acos_d (cos o) = Some o.
Proof.
  intros H. unfold acos_d. pose proof (COS_bound o) as [L U].
  destruct (Rle_dec (-1) (cos o)); [|contradiction].
  destruct (Rle_dec (cos o) 1); [|contradiction].
  rewrite acos_cos by lra. reflexivity.
Qed.

Lemma rodx_tr w : 0 < v3norm w -> (m3trace (rodx w) - 1) * (1/2) = cos (v3norm w).
Proof.
  intros H. unfold rodx. rewrite rod_trace, <- v3norm_sq. field; lra.
Qed.

Lemma Rabs_sign s : s = 1 \/ s = -1 -> Rabs s = 1.
Proof. intros [->| ->]; unfold Rabs; destruct (Rcase_abs _); lra. Qed.
Lemma rod_scal c1 c2 s w : rod c1 c2 (v3scal s w) = rod (c1 * s) (c2 * (s * s)) w.
Proof. unfold rod; geo. Qed.
Lemma rod_skew_part c1 c2 w : m3sub (rod c1 c2 w) (m3tr (rod c1 c2 w)) = m3scal (2 * c1) (hat3 w).
Proof. unfold rod; geo. Qed.

(** angle below 90 degrees *)
Lemma ln_rodx_acute w : 1 / 100000 <= v3norm w -> 0 < cos (v3norm w) -> v3norm w <= PI ->
  so3_ln (rodx w) = (hat3 w, v3norm w).
Proof.
  intros H Hc Hpi.
  assert (H0 : 0 < v3norm w) by lra.
  unfold so3_ln. cbv zeta. rewrite rodx_tr by auto.
  rewrite acos_d_cos by lra.
  rewrite (Rltb_lt (-1 + 1)) by lra.
  rewrite (Rltb_ge (v3norm w)) by lra.
  assert (Hsin : 0 < sin (v3norm w)).
  { apply sin_gt_0; auto.
    destruct (Rle_lt_or_eq_dec _ _ Hpi) as [L|E]; auto.
    rewrite E, cos_PI in Hc; lra. }
  f_equal. unfold rodx. rewrite rod_skew_part.
  assert (E : forall a b A, m3scal a (m3scal b A) = m3scal (a * b) A) by lin.
  rewrite E.
  replace (1 / 2 * v3norm w / sin (v3norm w) * (2 * (sin (v3norm w) / v3norm w))) with 1
    by (field; lra).
  apply m3scal_1.
Qed.

(** the selected column is a multiple of the axis *)
Lemma ln_col_rod c1 c2 w : 0 < c2 -> exists k,
  so3_ln_col (rod c1 c2 w) (1 - c2 * v3sqn w) = v3scal k w /\
  (~ bad_axis w -> k <> 0) /\ (bad_axis w -> k = 0).
Proof.
  intros Hc. destruct w as [x y z].
  unfold so3_ln_col.
  set (Rm := rod c1 c2 (mkV3 x y z)).
  assert (D0 : a00 Rm = 1 - c2 * (y * y + z * z)) by (unfold Rm, rod, hat3; lin_unfold; ring).
  assert (D1 : a11 Rm = 1 - c2 * (x * x + z * z)) by (unfold Rm, rod, hat3; lin_unfold; ring).
  assert (D2 : a22 Rm = 1 - c2 * (x * x + y * y)) by (unfold Rm, rod, hat3; lin_unfold; ring).
  assert (L10 : Rltb (a11 Rm) (a00 Rm) = Rltb (y * y) (x * x)).
  { unfold Rltb; rewrite D0, D1.
    destruct (Rlt_dec (y * y) (x * x)), (Rlt_dec (1 - c2 * (x * x + z * z)) (1 - c2 * (y * y + z * z))); auto; exfalso; nra. }
  assert (L01 : Rltb (a00 Rm) (a11 Rm) = Rltb (x * x) (y * y)).
  { unfold Rltb; rewrite D0, D1.
    destruct (Rlt_dec (x * x) (y * y)), (Rlt_dec (1 - c2 * (y * y + z * z)) (1 - c2 * (x * x + z * z))); auto; exfalso; nra. }
  assert (L20 : Rltb (a22 Rm) (a00 Rm) = Rltb (z * z) (x * x)).
  { unfold Rltb; rewrite D0, D2.
    destruct (Rlt_dec (z * z) (x * x)), (Rlt_dec (1 - c2 * (x * x + y * y)) (1 - c2 * (y * y + z * z))); auto; exfalso; nra. }
  assert (L21 : Rltb (a22 Rm) (a11 Rm) = Rltb (z * z) (y * y)).
  { unfold Rltb; rewrite D1, D2.
    destruct (Rlt_dec (z * z) (y * y)), (Rlt_dec (1 - c2 * (x * x + y * y)) (1 - c2 * (x * x + z * z))); auto; exfalso; nra. }
  rewrite L10, L20, L01, L21.
  unfold bad_axis; cbn [vx vy vz].
  destruct (Rltb (y * y) (x * x)) eqn:Eyx; [apply Rltb_true in Eyx | apply Rltb_false in Eyx];
  destruct (Rltb (x * x) (y * y)) eqn:Exy; [apply Rltb_true in Exy | apply Rltb_false in Exy
     | apply Rltb_true in Exy | apply Rltb_false in Exy];
  destruct (Rltb (z * z) (x * x)) eqn:Ezx; (apply Rltb_true in Ezx || apply Rltb_false in Ezx);
  destruct (Rltb (z * z) (y * y)) eqn:Ezy; (apply Rltb_true in Ezy || apply Rltb_false in Ezy);
  cbn [andb]; try (exfalso; lra).
  all: first [
    (* first column *)
    exists (c2 * x); split;
      [ unfold Rm, rod, hat3; lin_unfold; apply v3_eq; field
      | split; [ intros _ ?; assert (x = 0) by nra; nra | intros [? ?]; exfalso; lra ] ]
  | exists (c2 * y); split;
      [ unfold Rm, rod, hat3; lin_unfold; apply v3_eq; field
      | split; [ intros _ ?; assert (y = 0) by nra; nra | intros [? ?]; exfalso; lra ] ]
  | exists (c2 * z); split;
      [ unfold Rm, rod, hat3; lin_unfold; apply v3_eq; field
      | split; [ intros NB E0; assert (z = 0) by nra; subst z; apply NB; split; nra
               | intros [? E0]; rewrite E0; ring ] ] ].
Qed.

Lemma frob_plus s c1 c2 w :
  m3frob2 (m3sub (m3add m3id (hat3 (v3scal s w))) (rod c1 c2 w)) =
  2 * (s - c1) * (s - c1) * v3sqn w + c2 * c2 * (2 * v3sqn w * v3sqn w).
Proof. unfold rod; geo. Qed.
Lemma frob_minus s c1 c2 w :
  m3frob2 (m3sub (m3sub m3id (hat3 (v3scal s w))) (rod c1 c2 w)) =
  2 * (s + c1) * (s + c1) * v3sqn w + c2 * c2 * (2 * v3sqn w * v3sqn w).
Proof. unfold rod; geo. Qed.

Lemma sqrt_ltb a b : 0 <= a -> 0 <= b -> Rltb (sqrt a) (sqrt b) = Rltb a b.
Proof.
  intros Ha Hb. destruct (Rltb a b) eqn:E.
  - apply Rltb_lt. apply Rltb_true in E. apply sqrt_lt_1; auto.
  - apply Rltb_ge. apply Rltb_false in E. apply sqrt_le_1; auto.
Qed.
Lemma m3frob2_nonneg A : 0 <= m3frob2 A.
Proof. destruct A; unfold m3frob2; cbn; nra. Qed.


Lemma ln_rodx_obtuse w : 0 < v3norm w -> v3norm w <= PI -> cos (v3norm w) <= 0 ->
  (PI - v3norm w >= 6 / 100000000 \/ v3norm w = PI) ->
  ~ bad_axis w ->
  exists s, (s = 1 \/ s = -1) /\ (v3norm w < PI -> s = 1) /\
    so3_ln (rodx w) = (hat3 (v3scal s w), v3norm w).
Proof.
  intros H0 Hpi Hc Hpi6 Hbad.
  set (o := v3norm w) in *.
  assert (Ho2 : v3sqn w = o * o) by (symmetry; apply v3norm_sq).
  set (c1 := sin o / o). set (c2 := (1 - cos o) / (o * o)).
  assert (Hc2 : 0 < c2) by (unfold c2; apply Rdiv_lt_0_compat; nra).
  assert (Hd : 1 - c2 * v3sqn w = cos o) by (rewrite Ho2; unfold c2; field; lra).
  assert (Hr : rodx w = rod c1 c2 w) by reflexivity.
  unfold so3_ln. cbv zeta. rewrite (rodx_tr w H0). fold o.
  rewrite acos_d_cos by lra.
  rewrite (Rltb_ge (-1 + 1)) by lra.
  assert (Eo : (if Rltb (PI - o) (6 / 100000000) then PI else o) = o).
  { destruct (Rltb (PI - o) (6 / 100000000)) eqn:E; auto.
    apply Rltb_true in E. destruct Hpi6 as [?|?]; [exfalso; lra | auto]. }
  rewrite Eo, Hr, <- Hd.
  destruct (ln_col_rod c1 c2 w Hc2) as (k & Ek & Hk & _).
  specialize (Hk Hbad).
  rewrite Ek, v3norm_scal. fold o.
  assert (Hkp : 0 < Rabs k) by (apply Rabs_pos_lt; auto).
  rewrite (Rltb_lt 0 (Rabs k * o)) by nra.
  (* the sign of the chosen column *)
  set (s0 := o / (Rabs k * o) * k).
  assert (Hs0 : s0 = 1 \/ s0 = -1).
  { unfold s0, Rabs. destruct (Rcase_abs k); [right | left]; field; lra. }
  assert (Ew : v3scal (o / (Rabs k * o)) (v3scal k w) = v3scal s0 w)
    by (unfold s0; lin).
  rewrite Ew.
  unfold m3norm. rewrite sqrt_ltb by apply m3frob2_nonneg.
  rewrite frob_plus, frob_minus.
  set (K := c2 * c2 * (2 * v3sqn w * v3sqn w)).
  destruct (Rle_lt_or_eq_dec _ _ Hpi) as [Hlt|Heq].
  - (* sin o > 0 *)
    assert (Hsin : 0 < sin o) by (apply sin_gt_0; lra).
    assert (Hc1 : 0 < c1) by (unfold c1; apply Rdiv_lt_0_compat; lra).
    exists 1. split; [auto|]. split; [auto|].
    destruct Hs0 as [E|E]; rewrite E.
    + rewrite Rltb_ge; [reflexivity|]. rewrite Ho2.
      assert (0 < c1 * (o * o)) by (apply Rmult_lt_0_compat; nra). lra.
    + rewrite Rltb_lt; [f_equal; geo|]. rewrite Ho2.
      assert (0 < c1 * (o * o)) by (apply Rmult_lt_0_compat; nra). lra.
  - (* exactly pi *)
    assert (Hc1 : c1 = 0) by (unfold c1; rewrite Heq, sin_PI; field; lra).
    exists s0. split; [auto|]. split; [lra|].
    rewrite Hc1. rewrite Rltb_ge; [reflexivity|].
    destruct Hs0 as [E|E]; rewrite E; lra.
Qed.

(** the failure: for a bad axis and an angle of at least 90 degrees ln is zero *)
Lemma ln_rodx_bad w : 0 < v3norm w -> v3norm w <= PI -> cos (v3norm w) <= 0 ->
  (PI - v3norm w >= 6 / 100000000 \/ v3norm w = PI) ->
  bad_axis w -> so3_ln (rodx w) = (m3zero, v3norm w).
Proof.
  intros H0 Hpi Hc Hpi6 Hbad.
  set (o := v3norm w) in *.
  assert (Ho2 : v3sqn w = o * o) by (symmetry; apply v3norm_sq).
  set (c1 := sin o / o). set (c2 := (1 - cos o) / (o * o)).
  assert (Hc2 : 0 < c2) by (unfold c2; apply Rdiv_lt_0_compat; nra).
  assert (Hd : 1 - c2 * v3sqn w = cos o) by (rewrite Ho2; unfold c2; field; lra).
  assert (Hr : rodx w = rod c1 c2 w) by reflexivity.
  unfold so3_ln. cbv zeta. rewrite (rodx_tr w H0). fold o.
  rewrite acos_d_cos by lra.
  rewrite (Rltb_ge (-1 + 1)) by lra.
  assert (Eo : (if Rltb (PI - o) (6 / 100000000) then PI else o) = o).
  { destruct (Rltb (PI - o) (6 / 100000000)) eqn:E; auto.
    apply Rltb_true in E. destruct Hpi6 as [?|?]; [exfalso; lra | auto]. }
  rewrite Eo, Hr, <- Hd.
  destruct (ln_col_rod c1 c2 w Hc2) as (k & Ek & _ & Hk).
  specialize (Hk Hbad).
  rewrite Ek, v3norm_scal, Hk, Rabs_R0, Rmult_0_l.
  rewrite (Rltb_ge 0 0) by lra.
  replace (hat3 v3zero) with m3zero by (symmetry; geo).
  rewrite Rltb_ge; [reflexivity|].
  right. f_equal. lin.
Qed.

(** ** ln after exp *)
Lemma ln_exp w : 1 / 100000 <= v3norm w -> PI - v3norm w >= 6 / 100000000 ->
  ~ (bad_axis w /\ PI / 2 <= v3norm w) ->
  so3_ln (so3_of_vec w) = (hat3 w, v3norm w).
Proof.
  intros H1 H2 H3. rewrite so3_of_vec_rodx by auto.
  assert (H0 : 0 < v3norm w) by lra.
  destruct (Rlt_dec (v3norm w) (PI / 2)) as [Hlt|Hge].
  - apply ln_rodx_acute; auto; [| lra]. apply cos_gt_0; lra.
  - assert (Hc : cos (v3norm w) <= 0) by (apply cos_le_0; lra).
    destruct (ln_rodx_obtuse w) as (s & _ & Hs & E); auto; try lra.
    { intros B; apply H3; split; auto; lra. }
    rewrite Hs in E by lra. rewrite E. f_equal. f_equal. lin.
Qed.
Lemma ln_exp_zero : so3_ln (so3_of_vec v3zero) = (m3zero, 0).
Proof.
  rewrite so3_exp_zero. unfold so3_ln; cbv zeta.
  replace ((m3trace m3id - 1) * (1/2)) with (cos 0) by (rewrite cos_0; lin_unfold; field).
  pose proof PI_gt_3.
  rewrite acos_d_cos by lra. rewrite cos_0.
  rewrite (Rltb_lt (-1+1)) by lra. rewrite (Rltb_lt 0) by lra.
  f_equal. geo.
Qed.
Lemma ln_exp_bad w : bad_axis w -> PI / 2 <= v3norm w <= PI - 6 / 100000000 ->
  so3_ln (so3_of_vec w) = (m3zero, v3norm w).
Proof.
  intros HB H. pose proof PI_gt_3. rewrite so3_of_vec_rodx by lra.
  apply ln_rodx_bad; auto; try lra. apply cos_le_0; lra.
Qed.

(** ** every rotation is rodx of a vector *)
Lemma rotation_cayley A : rotation A ->
  m3mul (m3sub A (m3tr A)) (m3sub A (m3tr A)) =
  m3scal (1 + m3trace A) (m3sub (m3add A (m3tr A)) (m3scal 2 m3id)).
Proof.
  intros HA.
  pose proof (rotation_adj A HA) as Hadj.
  (* A^2 = tr(A) A - tr(adj A) I + adj A *)
  assert (CH : forall M, m3mul M M = m3add (m3sub (m3scal (m3trace M) M) (m3scal (m3trace (m3adj M)) m3id)) (m3adj M)) by lina.
  assert (S : m3mul (m3sub A (m3tr A)) (m3sub A (m3tr A)) =
    m3sub (m3sub (m3add (m3mul A A) (m3mul (m3tr A) (m3tr A))) (m3mul A (m3tr A))) (m3mul (m3tr A) A)) by lin.
  rewrite S, (rotation_rinv A HA), (rotation_linv A HA).
  assert (HT : rotation (m3tr A)) by (apply rotation_tr; auto).
  pose proof (rotation_adj _ HT) as HadjT. rewrite m3tr_tr in HadjT.
  rewrite (CH A), (CH (m3tr A)), Hadj, HadjT, !m3trace_tr.
  clear. lin.
Qed.

Lemma trace_skew_sq A :
  m3trace (m3mul (m3sub A (m3tr A)) (m3sub A (m3tr A))) = -2 * v3sqn (vee3 (m3sub A (m3tr A))).
Proof. destruct A. unfold vee3. lin_unfold. ring. Qed.

(** |trace| bounds of a rotation *)
Lemma orth_entry_bound A : orthogonal A ->
  -1 <= a00 A <= 1 /\ -1 <= a11 A <= 1 /\ -1 <= a22 A <= 1.
Proof.
  destruct A; unfold orthogonal; intros H. lin_unfold_in H. injection H; intros.
  cbn. repeat split; nra.
Qed.
Lemma rotation_trace_bound A : rotation A -> -1 <= m3trace A <= 3.
Proof.
  intros HA. split.
  - (* from the Cayley identity: trace of the square of a skew matrix is <= 0 *)
    pose proof (rotation_cayley A HA) as C.
    pose proof (orth_entry_bound A (proj1 HA)) as (B0 & B1 & B2).
    assert (T : m3trace (m3mul (m3sub A (m3tr A)) (m3sub A (m3tr A))) =
                (1 + m3trace A) * (2 * m3trace A - 6)).
    { rewrite C. lin. }
    assert (N : m3trace (m3mul (m3sub A (m3tr A)) (m3sub A (m3tr A))) <= 0).
    { rewrite trace_skew_sq. pose proof (v3sqn_nonneg (vee3 (m3sub A (m3tr A)))). lra. }
    rewrite T in N. unfold m3trace in *.
    destruct (Rle_dec (-1) (a00 A + a11 A + a22 A)); auto. exfalso; nra.
  - pose proof (orth_entry_bound A (proj1 HA)) as (B0 & B1 & B2). unfold m3trace; lra.
Qed.

Lemma acos_facts t : -1 <= t <= 1 -> 0 <= acos t <= PI /\ cos (acos t) = t.
Proof. intros H. split; [apply acos_bound | apply cos_acos; auto]. Qed.

Definition axis_vec (A : M3) : V3 :=
  let o := acos ((m3trace A - 1) / 2) in
  v3scal (o / (2 * sin o)) (vee3 (m3sub A (m3tr A))).

Lemma vee3_skewpart_sqn A : rotation A ->
  v3sqn (vee3 (m3sub A (m3tr A))) = (1 + m3trace A) * (3 - m3trace A).
Proof.
  intros HA. pose proof (rotation_cayley A HA) as C.
  assert (T : m3trace (m3mul (m3sub A (m3tr A)) (m3sub A (m3tr A))) = (1 + m3trace A) * (2 * m3trace A - 6)).
  { rewrite C. lin. }
  assert (V : m3trace (m3mul (m3sub A (m3tr A)) (m3sub A (m3tr A))) = -2 * v3sqn (vee3 (m3sub A (m3tr A)))).
  { apply trace_skew_sq. }
  lra.
Qed.

Lemma rotation_is_rodx A : rotation A ->
  let o := acos ((m3trace A - 1) / 2) in 0 < o < PI ->
  v3norm (axis_vec A) = o /\ rodx (axis_vec A) = A.
Proof.
  intros HA o Ho.
  pose proof (rotation_trace_bound A HA) as Ht.
  assert (Hcos : cos o = (m3trace A - 1) / 2) by (unfold o; apply cos_acos; lra).
  assert (Hsin : 0 < sin o) by (apply sin_gt_0; lra).
  pose proof (sin2cos2 o) as SC.
  assert (Hn2 : v3sqn (vee3 (m3sub A (m3tr A))) = (2 * sin o) * (2 * sin o)).
  { rewrite (vee3_skewpart_sqn A HA). nra. }
  assert (Hn : v3norm (vee3 (m3sub A (m3tr A))) = 2 * sin o).
  { unfold v3norm. rewrite Hn2. apply sqrt_square; lra. }
  assert (N : v3norm (axis_vec A) = o).
  { unfold axis_vec. cbv zeta. fold o. rewrite v3norm_scal, Hn, Rabs_right.
    - field; lra.
    - apply Rle_ge. unfold Rdiv. apply Rmult_le_pos; [lra|]. left; apply Rinv_0_lt_compat; lra. }
  split; auto.
  unfold rodx. rewrite N. unfold rod.
  assert (SK : skew (m3sub A (m3tr A))) by (unfold skew; clear; lin).
  assert (HW : hat3 (axis_vec A) = m3scal (o / (2 * sin o)) (m3sub A (m3tr A))).
  { unfold axis_vec; cbv zeta; fold o. rewrite hat3_scal, (hat3_vee3 _ SK). reflexivity. }
  rewrite HW.
  set (k := o / (2 * sin o)).
  assert (E1 : m3scal (sin o / o) (m3scal k (m3sub A (m3tr A))) = m3scal (1/2) (m3sub A (m3tr A))).
  { assert (X : forall a b M, m3scal a (m3scal b M) = m3scal (a * b) M) by lin. rewrite X. f_equal.
    unfold k; field; lra. }
  assert (E2 : m3mul (m3scal ((1 - cos o) / (o * o)) (m3scal k (m3sub A (m3tr A)))) (m3scal k (m3sub A (m3tr A)))
     = m3scal (1/2) (m3sub (m3add A (m3tr A)) (m3scal 2 m3id))).
  { assert (X : forall a b M, m3mul (m3scal a (m3scal b M)) (m3scal b M) = m3scal (a * b * b) (m3mul M M)) by lin.
    rewrite X, (rotation_cayley A HA).
    assert (X2 : forall a b M, m3scal a (m3scal b M) = m3scal (a * b) M) by lin.
    rewrite X2. f_equal.
    replace (m3trace A) with (1 + 2 * cos o) by lra.
    unfold k.
    replace ((1 - cos o) / (o * o) * (o / (2 * sin o)) * (o / (2 * sin o)) * (1 + (1 + 2 * cos o)))
      with ((1 - cos o) * (1 + cos o) / (2 * (sin o * sin o))) by (field; lra).
    replace (sin o * sin o) with ((1 - cos o) * (1 + cos o)) by lra.
    field. split; nra. }
  rewrite E1, E2. clear. destruct A; lin_unfold; apply m3_eq; field.
Qed.


(** ** trace 3 is the identity, trace -1 is a half turn *)
Lemma rotation_trace3 A : rotation A -> m3trace A = 3 -> A = m3id.
Proof.
  intros [HO HD] HT.
  pose proof (orth_entry_bound A HO) as (B0 & B1 & B2).
  destruct A as [p00 p01 p02 p10 p11 p12 p20 p21 p22].
  unfold orthogonal in HO. lin_unfold_in HO. injection HO; intros.
  unfold m3trace in HT. cbn in HT, B0, B1, B2.
  assert (p00 = 1) by lra. assert (p11 = 1) by lra. assert (p22 = 1) by lra. subst.
  unfold m3id. apply m3_eq; try reflexivity; nra.
Qed.

Lemma half_turn_form A : rotation A -> m3trace A = -1 ->
  exists w, v3norm w = PI /\ rodx w = A.
Proof.
  intros HA HT.
  assert (HS : vee3 (m3sub A (m3tr A)) = v3zero).
  { apply v3sqn_zero. rewrite (vee3_skewpart_sqn A HA), HT. ring. }
  pose proof (rotation_adj A HA) as Hadj.
  pose proof PI_gt_3 as Hpi.
  (* it is enough to find a unit n with A = 2 n n^T - I *)
  assert (K : forall n, v3sqn n = 1 -> A = m3sub (m3scal 2 (m3outer n n)) m3id ->
              exists w, v3norm w = PI /\ rodx w = A).
  { intros n Hn E. exists (v3scal PI n).
    assert (Nn : v3norm (v3scal PI n) = PI).
    { rewrite v3norm_scal. unfold v3norm. rewrite Hn, sqrt_1, Rabs_right; lra. }
    split; auto. unfold rodx. rewrite Nn, sin_PI, cos_PI. unfold rod.
    rewrite hat3_scal.
    assert (X : m3mul (m3scal ((1 - -1) / (PI * PI)) (m3scal PI (hat3 n))) (m3scal PI (hat3 n))
              = m3scal (((1 - -1) / (PI * PI)) * PI * PI) (m3mul (hat3 n) (hat3 n))) by geo.
    rewrite X, hat3_sq, Hn.
    replace ((1 - -1) / (PI * PI) * PI * PI) with 2 by (field; lra).
    replace (0 / PI) with 0 by (field; lra).
    rewrite E. clear. geo. }
  destruct A as [p00 p01 p02 p10 p11 p12 p20 p21 p22].
  unfold m3adj in Hadj. lin_unfold_in Hadj. injection Hadj; clear Hadj; intros.
  repeat match goal with J : _ = ?x |- _ => is_var x; apply Rminus_diag_eq in J end.
  unfold vee3 in HS. lin_unfold_in HS. injection HS; clear HS; intros.
  unfold m3trace in HT; cbn in HT.
  assert (E10 : p10 = p01) by lra. assert (E20 : p20 = p02) by lra. assert (E21 : p21 = p12) by lra.
  subst p10 p20 p21.
  (* the 2x2 minors of A + I vanish *)
  assert (M01 : p01 * p01 = (p00 + 1) * (p11 + 1)) by lra.
  assert (M02 : p02 * p02 = (p00 + 1) * (p22 + 1)) by lra.
  assert (M12 : p12 * p12 = (p11 + 1) * (p22 + 1)) by lra.
  assert (M3 : p01 * p02 = (p00 + 1) * p12) by lra.
  assert (M4 : p01 * p12 = (p11 + 1) * p02) by lra.
  assert (M5 : p02 * p12 = (p22 + 1) * p01) by lra.
  destruct (orth_entry_bound _ (proj1 HA)) as (B0 & B1 & B2). cbn in B0, B1, B2.
  assert (Q : forall q, 0 < q -> (sqrt (q / 2)) * (sqrt (q / 2)) = q / 2 /\ 0 < sqrt (q / 2)).
  { intros q Hq. split; [apply sqrt_sqrt; lra | apply sqrt_lt_R0; lra]. }
  assert (Cs : 0 < p00 + 1 \/ 0 < p11 + 1 \/ 0 < p22 + 1).
  { destruct (Rlt_dec 0 (p00 + 1)); auto. destruct (Rlt_dec 0 (p11 + 1)); auto. right; right; lra. }
  destruct Cs as [Hp|[Hp|Hp]].
  - destruct (Q _ Hp) as [Q1 Q2]. set (r := sqrt ((p00 + 1) / 2)) in *.
    apply (K (mkV3 r (p01 / (2 * r)) (p02 / (2 * r)))).
    + unfold v3sqn, v3dot; cbn.
      replace (r * r + p01 / (2 * r) * (p01 / (2 * r)) + p02 / (2 * r) * (p02 / (2 * r)))
        with (r * r + (p01 * p01 + p02 * p02) / (4 * (r * r))) by (field; lra).
      rewrite Q1, M01, M02. replace (4 * ((p00 + 1) / 2)) with (2 * (p00 + 1)) by field.
      replace ((p00 + 1) * (p11 + 1) + (p00 + 1) * (p22 + 1)) with ((p00 + 1) * (1 - p00)) by (replace p22 with (-1 - p00 - p11) by lra; ring).
      field. lra.
    + lin_unfold. apply m3_eq.
      all: try (replace (2 * (r * r) - 1) with (2 * ((p00 + 1) / 2) - 1) by (rewrite <- Q1; ring); field; lra).
      all: try (field; lra).
      all: try (replace (p01 / (2 * r) * (p01 / (2 * r))) with (p01 * p01 / (4 * (r * r))) by (field; lra);
                rewrite Q1, M01; field; lra).
      all: try (replace (p02 / (2 * r) * (p02 / (2 * r))) with (p02 * p02 / (4 * (r * r))) by (field; lra);
                rewrite Q1, M02; field; lra).
      all: try (replace (p01 / (2 * r) * (p02 / (2 * r))) with (p01 * p02 / (4 * (r * r))) by (field; lra);
                rewrite Q1, M3; field; lra).
      all: try (replace (p02 / (2 * r) * (p01 / (2 * r))) with (p01 * p02 / (4 * (r * r))) by (field; lra);
                rewrite Q1, M3; field; lra).
  - destruct (Q _ Hp) as [Q1 Q2]. set (r := sqrt ((p11 + 1) / 2)) in *.
    apply (K (mkV3 (p01 / (2 * r)) r (p12 / (2 * r)))).
    + unfold v3sqn, v3dot; cbn.
      replace (p01 / (2 * r) * (p01 / (2 * r)) + r * r + p12 / (2 * r) * (p12 / (2 * r)))
        with (r * r + (p01 * p01 + p12 * p12) / (4 * (r * r))) by (field; lra).
      rewrite Q1, M01, M12. replace (4 * ((p11 + 1) / 2)) with (2 * (p11 + 1)) by field.
      replace ((p00 + 1) * (p11 + 1) + (p11 + 1) * (p22 + 1)) with ((p11 + 1) * (1 - p11)) by (replace p22 with (-1 - p00 - p11) by lra; ring).
      field. lra.
    + lin_unfold. apply m3_eq.
      all: try (replace (2 * (r * r) - 1) with (2 * ((p11 + 1) / 2) - 1) by (rewrite <- Q1; ring); field; lra).
      all: try (field; lra).
      all: try (replace (p01 / (2 * r) * (p01 / (2 * r))) with (p01 * p01 / (4 * (r * r))) by (field; lra);
                rewrite Q1, M01; field; lra).
      all: try (replace (p12 / (2 * r) * (p12 / (2 * r))) with (p12 * p12 / (4 * (r * r))) by (field; lra);
                rewrite Q1, M12; field; lra).
      all: try (replace (p01 / (2 * r) * (p12 / (2 * r))) with (p01 * p12 / (4 * (r * r))) by (field; lra);
                rewrite Q1, M4; field; lra).
      all: try (replace (p12 / (2 * r) * (p01 / (2 * r))) with (p01 * p12 / (4 * (r * r))) by (field; lra);
                rewrite Q1, M4; field; lra).
  - destruct (Q _ Hp) as [Q1 Q2]. set (r := sqrt ((p22 + 1) / 2)) in *.
    apply (K (mkV3 (p02 / (2 * r)) (p12 / (2 * r)) r)).
    + unfold v3sqn, v3dot; cbn.
      replace (p02 / (2 * r) * (p02 / (2 * r)) + p12 / (2 * r) * (p12 / (2 * r)) + r * r)
        with (r * r + (p02 * p02 + p12 * p12) / (4 * (r * r))) by (field; lra).
      rewrite Q1, M02, M12. replace (4 * ((p22 + 1) / 2)) with (2 * (p22 + 1)) by field.
      replace ((p00 + 1) * (p22 + 1) + (p11 + 1) * (p22 + 1)) with ((p22 + 1) * (1 - p22)) by (replace p11 with (-1 - p00 - p22) by lra; ring).
      field. lra.
    + lin_unfold. apply m3_eq.
      all: try (replace (2 * (r * r) - 1) with (2 * ((p22 + 1) / 2) - 1) by (rewrite <- Q1; ring); field; lra).
      all: try (field; lra).
      all: try (replace (p02 / (2 * r) * (p02 / (2 * r))) with (p02 * p02 / (4 * (r * r))) by (field; lra);
                rewrite Q1, M02; field; lra).
      all: try (replace (p12 / (2 * r) * (p12 / (2 * r))) with (p12 * p12 / (4 * (r * r))) by (field; lra);
                rewrite Q1, M12; field; lra).
      all: try (replace (p02 / (2 * r) * (p12 / (2 * r))) with (p02 * p12 / (4 * (r * r))) by (field; lra);
                rewrite Q1, M5; field; lra).
      all: try (replace (p12 / (2 * r) * (p02 / (2 * r))) with (p02 * p12 / (4 * (r * r))) by (field; lra);
                rewrite Q1, M5; field; lra).
Qed.

(** every rotation other than the identity is rodx of some w with |w| its angle *)
Lemma rotation_rodx_exists A : rotation A -> A <> m3id ->
  exists w, 0 < v3norm w <= PI /\ m3trace A = 1 + 2 * cos (v3norm w) /\ rodx w = A.
Proof.
  intros HA HI.
  pose proof (rotation_trace_bound A HA) as Ht.
  set (o := acos ((m3trace A - 1) / 2)).
  assert (Hb : 0 <= o <= PI) by (apply acos_bound).
  assert (Hc : cos o = (m3trace A - 1) / 2) by (apply cos_acos; lra).
  pose proof PI_gt_3.
  destruct (Req_dec o 0) as [E|N].
  { exfalso. apply HI, rotation_trace3; auto. rewrite E, cos_0 in Hc. lra. }
  destruct (Req_dec o PI) as [E|N2].
  { rewrite E, cos_PI in Hc. destruct (half_turn_form A HA) as (w & Hw & Hr); [lra|].
    exists w. rewrite Hw, cos_PI. repeat split; auto; lra. }
  destruct (rotation_is_rodx A HA) as [Hn Hr]; [fold o; lra|]. fold o in Hn.
  exists (axis_vec A). rewrite Hn. repeat split; auto; lra.
Qed.

(** ** axis of a rotation and the failure set, in terms of the matrix *)
Definition fixes (A : M3) (u : V3) : Prop := m3app A u = u.

Lemma rod_fix_iff c1 c2 w u : 0 < c2 -> m3app (rod c1 c2 w) u = u -> v3cross w u = v3zero.
Proof.
  intros Hc H. apply v3sqn_zero.
  assert (E : v3dot u (m3app (rod c1 c2 w) u) = v3dot u u - c2 * v3sqn (v3cross w u)) by (unfold rod; geo).
  rewrite H in E. nra.
Qed.
Lemma rodx_c2_pos w : 0 < v3norm w <= PI -> 0 < (1 - cos (v3norm w)) / (v3norm w * v3norm w).
Proof.
  intros H. apply Rdiv_lt_0_compat; [|nra].
  assert (cos (v3norm w) < 1); [|lra].
  rewrite <- cos_0. pose proof PI_gt_3. apply cos_decreasing_1; lra.
Qed.
Lemma bad_axis_fixes w : 0 < v3norm w <= PI ->
  (bad_axis w <-> fixes (rodx w) (mkV3 1 1 0) \/ fixes (rodx w) (mkV3 1 (-1) 0)).
Proof.
  intros H. split.
  - intros [Hxy Hz]. destruct w as [x y z]. cbn in Hxy, Hz. subst z.
    assert (C : x = y \/ x = - y) by nra.
    destruct C as [->| ->]; [left|right]; unfold fixes, rodx, rod, hat3; lin_unfold; apply v3_eq; ring.
  - intros HF. assert (C : v3cross w (mkV3 1 1 0) = v3zero \/ v3cross w (mkV3 1 (-1) 0) = v3zero).
    { destruct HF as [HF|HF]; [left|right]; eapply rod_fix_iff; try exact HF; apply rodx_c2_pos; auto. }
    destruct w as [x y z]. unfold bad_axis. cbn.
    destruct C as [C|C]; lin_unfold_in C; injection C; intros; split; nra.
Qed.

(** ** exp after ln *)
Lemma exp_ln A theta : rotation A -> rotation_angle A theta ->
  theta = 0 \/ 1 / 100000 <= theta <= PI - 6 / 100000000 \/ theta = PI ->
  (theta < PI / 2 \/ (~ fixes A (mkV3 1 1 0) /\ ~ fixes A (mkV3 1 (-1) 0))) ->
  so3_exp (fst (so3_ln A)) = A /\ snd (so3_ln A) = theta.
Proof.
  intros HA [Hth Htr] Hrange Hgood.
  pose proof PI_gt_3 as Hpi.
  destruct (Req_dec theta 0) as [E0|N0].
  { subst theta. rewrite cos_0 in Htr. assert (A = m3id) by (apply rotation_trace3; auto; lra).
    subst A. pose proof ln_exp_zero as L. rewrite so3_exp_zero in L. rewrite L. cbn.
    split; auto. replace m3zero with (hat3 v3zero) by geo. apply so3_exp_zero. }
  assert (HI : A <> m3id).
  { intros ->. assert (cos theta = 1) by (unfold m3trace, m3id in Htr; cbn in Htr; lra).
    assert (cos theta < 1); [|lra]. rewrite <- cos_0. apply cos_decreasing_1; lra. }
  destruct (rotation_rodx_exists A HA HI) as (w & Hw & Hwt & Hr).
  assert (Eth : v3norm w = theta).
  { apply cos_inj; try lra. }
  assert (Hexp : forall s, s = 1 \/ s = -1 -> (theta < PI -> s = 1) ->
            so3_exp (hat3 (v3scal s w)) = A).
  { intros s Hs Hs1. change (so3_of_vec (v3scal s w) = A).
    rewrite so3_of_vec_rodx.
    2:{ rewrite v3norm_scal, (Rabs_sign s Hs). lra. }
    destruct (Rle_lt_or_eq_dec theta PI) as [L|E]; [lra| |].
    - rewrite Hs1 by auto. rewrite <- Hr. f_equal. lin.
    - rewrite <- Hr. unfold rodx. rewrite v3norm_scal.
      rewrite (Rabs_sign s Hs).
      rewrite Rmult_1_l, Eth, E, sin_PI.
      replace (0 / PI) with 0 by (field; lra).
      assert (s * s = 1) by (destruct Hs as [->| ->]; ring).
      rewrite rod_scal, H. f_equal; ring. }
  destruct (Rlt_dec theta (PI / 2)) as [Hac|Hob].
  - assert (L : so3_ln A = (hat3 w, v3norm w)).
    { rewrite <- Hr. apply ln_rodx_acute; try lra. rewrite Eth. apply cos_gt_0; lra. }
    rewrite L. cbn. split; auto.
    rewrite <- (Hexp 1); auto. f_equal. f_equal. lin.
  - assert (HB : ~ bad_axis w).
    { intros B. apply (bad_axis_fixes w Hw) in B. rewrite Hr in B.
      destruct Hgood as [?|[? ?]]; [lra|]. destruct B; contradiction. }
    destruct (ln_rodx_obtuse w) as (s & Hs & Hs1 & L); auto; try lra.
    { rewrite Eth; apply cos_le_0; lra. }
    rewrite Hr in L. rewrite L. cbn. split; auto.
    apply Hexp; auto. intros; apply Hs1; lra.
Qed.
