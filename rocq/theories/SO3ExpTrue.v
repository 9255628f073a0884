(** SO3::exp against the matrix exponential: existence/uniqueness of the
    exponential curve and closeness on the small-angle branch. *)
Require Import Reals Lra Psatz.
From Coquelicot Require Import Coquelicot.
From Verif Require Import Lin LinFacts SO3 SpecGeom SO3Exp TrigBounds.
Local Open Scope R_scope.

Lemma m3_derivative_const A s : m3_derivative (fun _ => A) s m3zero.
Proof. unfold m3_derivative; cbn; repeat split; apply derivable_pt_lim_const. Qed.

Lemma exp_curve_zero : is_exp_curve3 m3zero (fun _ => m3id).
Proof.
  split; [reflexivity|]. intros s.
  replace (m3mul m3zero m3id) with m3zero by (symmetry; lin). apply m3_derivative_const.
Qed.

Lemma const_of_deriv0 (f : R -> R) : (forall s, derivable_pt_lim f s 0) -> forall s, f s = f 0.
Proof.
  intros H s.
  assert (pr : derivable f) by (intros x; exists 0; apply H).
  apply (null_derivative_1 f pr).
  intros x. apply derive_pt_eq_0. apply H.
Qed.

Lemma sqdiff_der f g x a b : derivable_pt_lim f x a -> derivable_pt_lim g x b ->
  derivable_pt_lim (fun x => (f x - g x) * (f x - g x)) x (2 * (f x - g x) * (a - b)).
Proof.
  intros Hf Hg. pose proof (derivable_pt_lim_minus _ _ _ _ _ Hf Hg) as D.
  pose proof (derivable_pt_lim_mult _ _ _ _ _ D D) as P.
  replace (2 * (f x - g x) * (a - b)) with
    ((a - b) * (f - g)%F x + (f - g)%F x * (a - b)) by (unfold minus_fct; ring).
  exact P.
Qed.

(** Two exponential curves of the same skew generator coincide: the squared
    distance between them has derivative zero. *)
Lemma exp_curve3_unique W E F : skew W -> is_exp_curve3 W E -> is_exp_curve3 W F ->
  forall s, E s = F s.
Proof.
  intros HW [E0 HE] [F0 HF] s.
  set (g := fun x => m3frob2 (m3sub (E x) (F x))).
  assert (G : forall x, derivable_pt_lim g x 0).
  { intros x. specialize (HE x). specialize (HF x).
    destruct W as [w00 w01 w02 w10 w11 w12 w20 w21 w22].
    unfold skew in HW. lin_unfold_in HW. injection HW; clear HW; intros.
    unfold m3_derivative in HE, HF. cbn in HE, HF.
    destruct HE as (E1 & E2 & E3 & E4 & E5 & E6 & E7 & E8 & E9).
    destruct HF as (F1 & F2 & F3 & F4 & F5 & F6 & F7 & F8 & F9).
    unfold g, m3frob2, m3sub; cbn.
    match goal with |- derivable_pt_lim _ _ 0 =>
      pose proof (derivable_pt_lim_plus _ _ _ _ _
      (derivable_pt_lim_plus _ _ _ _ _
      (derivable_pt_lim_plus _ _ _ _ _
      (derivable_pt_lim_plus _ _ _ _ _
      (derivable_pt_lim_plus _ _ _ _ _
      (derivable_pt_lim_plus _ _ _ _ _
      (derivable_pt_lim_plus _ _ _ _ _
      (derivable_pt_lim_plus _ _ _ _ _
       (sqdiff_der _ _ _ _ _ E1 F1) (sqdiff_der _ _ _ _ _ E2 F2))
       (sqdiff_der _ _ _ _ _ E3 F3)) (sqdiff_der _ _ _ _ _ E4 F4))
       (sqdiff_der _ _ _ _ _ E5 F5)) (sqdiff_der _ _ _ _ _ E6 F6))
       (sqdiff_der _ _ _ _ _ E7 F7)) (sqdiff_der _ _ _ _ _ E8 F8))
       (sqdiff_der _ _ _ _ _ E9 F9)) as K end.
    cbv beta in K.
    match type of K with derivable_pt_lim _ _ ?v => assert (EV : v = 0) end.
    2:{ rewrite EV in K; exact K. }
    { replace w00 with 0 by lra. replace w11 with 0 by lra. replace w22 with 0 by lra.
      replace w10 with (- w01) by lra. replace w20 with (- w02) by lra. replace w21 with (- w12) by lra.
      ring. } }
  pose proof (const_of_deriv0 g G s) as C.
  assert (Z : g s = 0).
  { rewrite C. unfold g. rewrite E0, F0. lin_unfold. ring. }
  unfold g in Z. destruct (E s), (F s). lin_unfold_in Z.
  assert (X : forall p q, (p - q) * (p - q) = 0 -> p = q)
    by (intros p q H; apply Rmult_integral in H; lra).
  assert (S : forall p q, 0 <= (p - q) * (p - q)) by (intros; apply Rle_0_sqr).
  apply m3_eq; apply X; apply Rle_antisym; try apply S.
  all: match type of Z with
       | ?e1 + ?e2 + ?e3 + ?e4 + ?e5 + ?e6 + ?e7 + ?e8 + ?e9 = 0 =>
         assert (0 <= e1) by apply S; assert (0 <= e2) by apply S; assert (0 <= e3) by apply S;
         assert (0 <= e4) by apply S; assert (0 <= e5) by apply S; assert (0 <= e6) by apply S;
         assert (0 <= e7) by apply S; assert (0 <= e8) by apply S; assert (0 <= e9) by apply S
       end; lra.
Qed.

Lemma matrix_exp3_unique W M N : skew W -> matrix_exp3 W M -> matrix_exp3 W N -> M = N.
Proof.
  intros HW (E & HE & ->) (F & HF & ->). eapply exp_curve3_unique; eauto.
Qed.

(** exact on the regular branch *)
Lemma so3_exp_is_exp w : w = v3zero \/ 1 / 100000 <= v3norm w -> matrix_exp3 (hat3 w) (so3_of_vec w).
Proof.
  intros [->|H].
  - exists (fun _ => m3id). split.
    + replace (hat3 v3zero) with m3zero by (symmetry; geo). apply exp_curve_zero.
    + apply so3_exp_zero.
  - assert (Hw : w <> v3zero) by (intros ->; rewrite v3norm_zero' in H; lra).
    exists (rot_curve w). split; [apply rot_curve_ode; auto|].
    rewrite <- so3_exp_curve; auto.
    + f_equal. symmetry. lin.
    + right. rewrite v3norm_scal, Rabs_R1. lra.
Qed.

Lemma norm_pos w : w <> v3zero -> 0 < v3norm w.
Proof.
  intros Hw. destruct (Rle_lt_or_eq_dec _ _ (v3norm_nonneg w)) as [L|E]; auto.
  exfalso; apply Hw, v3norm_zero; auto.
Qed.

Lemma comp_le_norm w : Rabs (vx w) <= v3norm w /\ Rabs (vy w) <= v3norm w /\ Rabs (vz w) <= v3norm w.
Proof.
  assert (X : forall x y, 0 <= y -> x * x <= y * y -> Rabs x <= y).
  { intros x y Hy H. apply Rabs_le. split; nra. }
  pose proof (v3norm_nonneg w). pose proof (v3norm_sq w) as S.
  destruct w as [x y z]. unfold v3sqn, v3dot in S. cbn in *.
  repeat split; apply X; auto; nra.
Qed.

Lemma rod_diff_within c1 c2 c1' c2' w e1 e2 :
  Rabs (c1 - c1') <= e1 -> Rabs (c2 - c2') <= e2 ->
  m3_within (e1 * v3norm w + e2 * v3sqn w) (m3sub (rod c1 c2 w) (rod c1' c2' w)).
Proof.
  intros H1 H2.
  assert (E : m3sub (rod c1 c2 w) (rod c1' c2' w) =
          m3add (m3scal (c1 - c1') (hat3 w)) (m3scal (c2 - c2') (m3mul (hat3 w) (hat3 w)))) by (unfold rod; geo).
  rewrite E.
  pose proof (hat3_sq_within w (v3sqn w) (Rle_refl _)) as HS.
  pose proof (comp_le_norm w) as (Hx & Hy & Hz).
  pose proof (v3norm_nonneg w) as Hn. pose proof (v3sqn_nonneg w) as Hs.
  assert (P1 : 0 <= e1) by (eapply Rle_trans; [apply Rabs_pos|exact H1]).
  assert (P2 : 0 <= e2) by (eapply Rle_trans; [apply Rabs_pos|exact H2]).
  assert (K : forall a b, Rabs a <= v3norm w -> Rabs b <= v3sqn w ->
     Rabs ((c1 - c1') * a + (c2 - c2') * b) <= e1 * v3norm w + e2 * v3sqn w).
  { intros a b Ha Hb. eapply Rle_trans; [apply Rabs_triang|]. rewrite !Rabs_mult.
    apply Rplus_le_compat; apply Rmult_le_compat; auto; apply Rabs_pos. }
  assert (Z : Rabs 0 <= v3norm w) by (rewrite Rabs_R0; auto).
  destruct w as [x y z]. unfold m3_within in *. cbn in HS, Hx, Hy, Hz |- *.
  destruct HS as (S1 & S2 & S3 & S4 & S5 & S6 & S7 & S8 & S9).
  repeat split; apply K; auto; rewrite ?Rabs_Ropp; auto.
Qed.

Lemma small_sinc o : 0 < o < 1 / 100000 ->
  Rabs ((1 - o * o / 6) - sin o / o) <= / 10 ^ 22.
Proof.
  intros H. pose proof PI_gt_3.
  pose proof (sin_taylor5 o) as [L U]; [lra|].
  assert (A : 1 - o * o / 6 <= sin o / o <= 1 - o * o / 6 + o^4 / 120).
  { split; apply Rmult_le_reg_r with o; try lra; unfold Rdiv; rewrite ?Rmult_assoc, ?Rinv_l, ?Rmult_1_r by lra.
    - replace ((1 - o * (o * / 6)) * o) with (o - o ^ 3 / 6) by field. lra.
    - replace ((1 - o * (o * / 6) + o ^ 4 * / 120) * o) with (o - o ^ 3 / 6 + o^5/120) by field. lra. }
  assert (B : o ^ 4 / 120 <= / 10 ^ 22).
  { assert (o * o <= 1 / 10000000000) by nra.
    assert (o ^ 4 <= 1 / 100000000000000000000) by (simpl; nra).
    simpl in *; lra. }
  apply Rabs_le. lra.
Qed.
Lemma small_cosc o : 0 < o < 1 / 100000 ->
  Rabs ((1 / 2 - o * o / 24) - (1 - cos o) / (o * o)) <= / 10 ^ 22.
Proof.
  intros H. pose proof PI_gt_3.
  assert (L := cos_taylor6 o ltac:(lra)).
  pose proof (cos_taylor4 o) as [L2 U2]; [lra|].
  assert (P : 0 < o * o) by nra.
  assert (A : 1/2 - o * o / 24 <= (1 - cos o) / (o * o) <= 1/2 - o * o / 24 + o^4 / 720).
  { split; apply Rmult_le_reg_r with (o * o); try lra; unfold Rdiv;
      rewrite ?(Rmult_assoc (1 - cos o)), ?Rinv_l, ?Rmult_1_r by lra.
    - replace ((1 * / 2 - o * o * / 24) * (o * o)) with (o^2 / 2 - o ^ 4 / 24) by field. lra.
    - replace ((1 * / 2 - o * o * / 24 + o ^ 4 * / 720) * (o * o)) with (o^2/2 - o ^ 4 / 24 + o^6/720) by field. lra. }
  assert (B : o ^ 4 / 720 <= / 10 ^ 22).
  { assert (o * o <= 1 / 10000000000) by nra.
    assert (o ^ 4 <= 1 / 100000000000000000000) by (simpl; nra).
    simpl in *; lra. }
  apply Rabs_le. lra.
Qed.

(** On every input, the result is within 1e-26 of the matrix exponential. *)
Lemma so3_exp_near_exp w : exists E, matrix_exp3 (hat3 w) E /\ m3_within (/ 10 ^ 26) (m3sub (so3_of_vec w) E).
Proof.
  assert (P30 : 0 < / 10 ^ 26) by (apply Rinv_0_lt_compat, pow_lt; lra).
  assert (Z : forall A, m3_within (/ 10 ^ 26) (m3sub A A)).
  { intros A. replace (m3sub A A) with m3zero by (symmetry; lin).
    unfold m3_within; cbn - [pow]. rewrite Rabs_R0. repeat split; lra. }
  destruct (Rlt_dec (v3norm w) (1 / 100000)) as [Hs|Hb].
  2:{ exists (so3_of_vec w). split; [apply so3_exp_is_exp; right; lra | apply Z]. }
  destruct (Req_dec (v3norm w) 0) as [E0|N0].
  { apply v3norm_zero in E0. exists (so3_of_vec w). split; [apply so3_exp_is_exp; auto | apply Z]. }
  pose proof (v3norm_nonneg w) as Hn.
  assert (Hw : w <> v3zero) by (intros ->; rewrite v3norm_zero' in N0; lra).
  exists (rot_curve w 1). split.
  - exists (rot_curve w). split; [apply rot_curve_ode; auto | reflexivity].
  - rewrite so3_of_vec_rod. unfold rot_curve; cbv zeta. rewrite Rmult_1_l.
    unfold so3_exp_c1, so3_exp_c2. rewrite (Rltb_lt _ _ Hs).
    eapply m3_within_le; [| apply rod_diff_within].
    2:{ rewrite <- v3norm_sq. apply small_sinc. lra. }
    2:{ rewrite <- v3norm_sq. apply small_cosc. lra. }
    pose proof (small_o2 w Hs).
    assert (/ 10^22 * v3norm w <= / 10 ^ 22 * (1/100000)).
    { apply Rmult_le_compat_l; [|lra]. left; apply Rinv_0_lt_compat, pow_lt; lra. }
    assert (/ 10^22 * v3sqn w <= / 10 ^ 22 * (1/10000000000)).
    { apply Rmult_le_compat_l; [|lra]. left; apply Rinv_0_lt_compat, pow_lt; lra. }
    simpl in *. lra.
Qed.
