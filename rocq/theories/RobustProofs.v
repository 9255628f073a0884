Require Import Reals Lra List Psatz.
From Coquelicot Require Import Coquelicot.
From Verif Require Import SO3 AngleProofs Robust.
Import ListNotations.
Local Open Scope R_scope.

(** influence functions of factor.hpp:68-77 (threshold 1) *)
Definition influence (t : robust_type) (u : R) : R :=
  match t with
  | QUADRATIC => 1 / 2 * u ^ 2
  | HUBER => if Rlt_dec u 1 then 1 / 2 * u ^ 2 else u - 1 / 2
  | CAUCHY => 1 / 2 * ln (1 + u ^ 2)
  | MCCLURE => 1 / 2 * u ^ 2 / (1 + u ^ 2)
  | RANSAC => if Rlt_dec u 1 then 1 / 2 * u ^ 2 else 1
  end.
Lemma robust_last t us u w0 : t <> RANSAC -> fold_left (fun w u => robust_eval t w u) (us ++ [u]) w0 = robust_eval t 0 u.
Proof. intros H. rewrite fold_left_app. cbn. destruct t; auto. congruence. Qed.
Lemma ransac_zero us : robust_after RANSAC us = 0.
Proof. unfold robust_after. induction us; cbn; auto. Qed.
Lemma robust_bounds t w u : t <> RANSAC -> 0 <= u -> 0 < robust_eval t w u <= 1.
Proof.
  intros H L. destruct t; cbn; try congruence; try lra.
  - destruct (Rltb u 1) eqn:E; [lra|]. apply Rltb_niff in E. unfold Rdiv. rewrite Rmult_1_l. split.
    + apply Rinv_0_lt_compat; lra.
    + rewrite <- Rinv_1. apply Rinv_le_contravar; lra.
  - assert (1 <= 1 + u * u) by nra. unfold Rdiv. rewrite Rmult_1_l. split.
    + apply Rinv_0_lt_compat; lra.
    + rewrite <- Rinv_1. apply Rinv_le_contravar; lra.
  - assert (1 <= 1 + u * u) by nra. unfold Rdiv. rewrite Rmult_1_l.
    assert (0 < / (1 + u * u) <= 1).
    { split. apply Rinv_0_lt_compat; lra. rewrite <- Rinv_1. apply Rinv_le_contravar; lra. }
    nra.
Qed.
Lemma robust_mono t w u u' : t <> RANSAC -> 0 <= u <= u' -> robust_eval t w u' <= robust_eval t w u.
Proof.
  intros H [L M]. destruct t; cbn; try congruence; try lra.
  - destruct (Rltb u 1) eqn:E, (Rltb u' 1) eqn:E'; rewrite ?Rltb_iff, ?Rltb_niff in *; try lra.
    + unfold Rdiv. rewrite Rmult_1_l. rewrite <- Rinv_1. apply Rinv_le_contravar; lra.
    + unfold Rdiv. rewrite !Rmult_1_l. apply Rinv_le_contravar; lra.
  - unfold Rdiv. rewrite !Rmult_1_l. apply Rinv_le_contravar; nra.
  - unfold Rdiv. rewrite !Rmult_1_l.
    assert (/ (1 + u' * u') <= / (1 + u * u)) by (apply Rinv_le_contravar; nra).
    assert (0 < / (1 + u' * u')) by (apply Rinv_0_lt_compat; nra).
    nra.
Qed.
Lemma huber_glue (u : R) : derivable_pt_lim (influence HUBER) u (if Rlt_dec u 1 then u else 1).
Proof.
  destruct (total_order_T u 1) as [[L|E]|G].
  - destruct (Rlt_dec u 1); [|lra].
    apply is_derive_Reals.
    apply (is_derive_ext_loc (fun u => 1 / 2 * u ^ 2)).
    + exists (mkposreal (1 - u) ltac:(lra)). intros y Hy. cbn in Hy. unfold ball in Hy; cbn in Hy. unfold AbsRing_ball, abs, minus, plus, opp in Hy; cbn in Hy.
      unfold influence. destruct (Rlt_dec y 1); auto. unfold Rabs in Hy. destruct (Rcase_abs _); lra.
    + auto_derive; auto. field.
  - subst u. destruct (Rlt_dec 1 1); [lra|].
    intros eps He. exists (mkposreal eps He). intros h Hh Hd. cbn in Hd.
    unfold influence. destruct (Rlt_dec 1 1); [lra|].
    destruct (Rlt_dec (1 + h) 1).
    + replace ((1 / 2 * (1 + h) ^ 2 - (1 - 1 / 2)) / h - 1) with (h / 2) by (field; auto).
      unfold Rabs in *. destruct (Rcase_abs h); destruct (Rcase_abs (h / 2)); lra.
    + replace ((1 + h - 1 / 2 - (1 - 1 / 2)) / h - 1) with 0 by (field; auto). rewrite Rabs_R0; auto.
  - destruct (Rlt_dec u 1); [lra|].
    apply is_derive_Reals.
    apply (is_derive_ext_loc (fun u => u - 1 / 2)).
    + exists (mkposreal (u - 1) ltac:(lra)). intros y Hy. unfold ball in Hy; cbn in Hy. unfold AbsRing_ball, abs, minus, plus, opp in Hy; cbn in Hy.
      unfold influence. destruct (Rlt_dec y 1); auto. unfold Rabs in Hy. destruct (Rcase_abs _); lra.
    + auto_derive; auto.
Qed.
(** w(u) u is the derivative of the influence function *)
Lemma robust_is_influence t u : t <> RANSAC -> 0 <= u ->
  derivable_pt_lim (influence t) u (robust_eval t robust_init u * u).
Proof.
  intros H L. destruct t; try congruence; cbn [robust_eval].
  - apply is_derive_Reals. unfold influence. auto_derive; auto. field.
  - replace ((if Rltb u 1 then 1 else 1 / u) * u) with (if Rlt_dec u 1 then u else 1). apply huber_glue.
    unfold Rltb. destruct (Rlt_dec u 1); [ring|]. field. lra.
  - apply is_derive_Reals. unfold influence. auto_derive. nra. field. nra.
  - apply is_derive_Reals. unfold influence. auto_derive. nra. field. nra.
Qed.
