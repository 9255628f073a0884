(** The velocity at s = 0 of the code's own update T <- exp(s xi) T. *)
Require Import Reals List Arith Lia Lra Psatz Bool.
From Verif Require Import Lin LinFacts SO3 SE3 SpecGeom SO3Exp SO3Ln SE3Ops SE3Alg SE3Exp Sums Nodes Robust Graph Solve Session Factors.
From Verif Require Import SpecFactors FactorsDer Factors3D.
Import ListNotations.
Local Open Scope R_scope.

(** polynomial forms of the code's exponential for small increments *)
Definition rot_small (s : R) (w : V3) : M3 :=
  rod (1 - s * s * v3sqn w / 6) (1 / 2 - s * s * v3sqn w / 24) (v3scal s w).
Definition tra_small (s : R) (w : V3) : M3 :=
  rod (1 / 2 - s * s * v3sqn w / 24) (1 / 6 - s * s * v3sqn w / 120) (v3scal s w).
Lemma small_form s w v : Rabs (s - 0) < (1 / 100000) / (v3norm w + 1) ->
  se3_of_vec (v6scal s (mkV6 w v)) = se3_of_Rt (rot_small s w) (m3app (tra_small s w) (v3scal s v)).
Proof.
  intros Hs. rewrite Rminus_0_r in Hs. rewrite se3_of_vec_block. cbn [v6w v6v v6scal].
  pose proof (v3norm_nonneg w) as N.
  assert (HN : v3norm (v3scal s w) < 1 / 100000).
  { rewrite v3norm_scal. apply Rle_lt_trans with (Rabs s * (v3norm w + 1)).
    - apply Rmult_le_compat_l; [apply Rabs_pos | lra].
    - apply (Rmult_lt_compat_r (v3norm w + 1)) in Hs; [|lra].
      replace ((1 / 100000) / (v3norm w + 1) * (v3norm w + 1)) with (1 / 100000) in Hs by (field; lra). exact Hs. }
  assert (SQ : v3sqn (v3scal s w) = s * s * v3sqn w) by (destruct w; lin).
  f_equal.
  - unfold so3_of_vec, so3_exp. rewrite vee3_hat3. cbv zeta. unfold so3_exp_c1, so3_exp_c2, Rltb.
    destruct (Rlt_dec _ _); [|lra]. rewrite SQ. unfold rot_small, rod.
    generalize (hat3 (v3scal s w)), (1 - s * s * v3sqn w / 6), (1 / 2 - s * s * v3sqn w / 24). clear. lin.
  - unfold Vmat, se3_exp_c2, se3_exp_c3, Rltb. destruct (Rlt_dec _ _); [lra|]. rewrite SQ. reflexivity.
Qed.
Lemma update_tangent T xi : affine T ->
  m4_derivative (fun s => se3_update_lhs T (v6scal s xi)) 0 (m4mul (twist xi) T).
Proof.
  intros A. destruct xi as [w v]. pose proof (v3norm_nonneg w) as N.
  set (d := (1 / 100000) / (v3norm w + 1)). assert (D : 0 < d) by (apply Rdiv_lt_0_compat; lra).
  assert (E : forall s, Rabs (s - 0) < d -> se3_update_lhs T (v6scal s (mkV6 w v)) =
     se3_of_Rt (m3mul (rot_small s w) (mR T)) (v3add (m3app (rot_small s w) (mt T)) (m3app (tra_small s w) (v3scal s v)))).
  { intros s Hs. unfold se3_update_lhs. rewrite (small_form s w v Hs). rewrite (affine_form T A) at 1. rewrite mul_of_Rt. reflexivity. }
  rewrite twist_mul by auto. cbn [v6w v6v].
  assert (DR : m3_derivative (fun s => rot_small s w) 0 (hat3 w)).
  { unfold m3_derivative, rot_small, rod, hat3. lc. generalize (v3sqn w). intros n. unfold Rdiv.
    repeat match goal with |- _ /\ _ => split end; (eapply dl_eq; [der | cbv beta; field]). }
  assert (DV : v3_derivative (fun s => m3app (tra_small s w) (v3scal s v)) 0 v).
  { unfold v3_derivative, tra_small, rod, hat3. lc. unfold Rdiv.
    repeat match goal with |- _ /\ _ => split end; (eapply dl_eq; [der | cbv beta; field]). }
  split; [|split; [|split]].
  - cbn [mR]. eapply m3_der_eq; [|].
    + assert (G : m3_derivative (fun s => m3mul (rot_small s w) (mR T)) 0 (m3mul (hat3 w) (mR T))).
      { eapply m3_der_eq; [apply m3_der_mul; [exact DR | apply m3_der_const]|]. generalize (hat3 w), (mR T), (rot_small 0 w). clear. lin. }
      destruct G as (G1 & G2 & G3 & G4 & G5 & G6 & G7 & G8 & G9).
      repeat split; (eapply dl_near; [exact D | intros s Hs; cbv beta; rewrite (E s Hs); cbn [mR se3_of_Rt]; reflexivity | eassumption]).
    + reflexivity.
  - cbn [mt].
    assert (G : v3_derivative (fun s => v3add (m3app (rot_small s w) (mt T)) (m3app (tra_small s w) (v3scal s v))) 0 (v3add (v3cross w (mt T)) v)).
    { apply v3_der_add; auto. eapply v3_der_eq; [apply m3_der_app; [exact DR | apply v3_der_const]|].
      rewrite hat3_app. generalize (rot_small 0 w) (v3cross w (mt T)). clear. lin. }
    destruct G as (G1 & G2 & G3).
    repeat split; (eapply dl_near; [exact D | intros s Hs; cbv beta; rewrite (E s Hs); cbn [mt se3_of_Rt]; reflexivity | eassumption]).
  - repeat split; (eapply dl_near; [exact D | intros s Hs; cbv beta; rewrite (E s Hs); reflexivity | cbn; apply dl_const]).
  - eapply dl_near; [exact D | intros s Hs; cbv beta; rewrite (E s Hs); reflexivity | cbn; apply dl_const].
Qed.
