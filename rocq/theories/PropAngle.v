(** Property theorems C22, C23 (wrap_angle). *)
Require Import Reals ZArith Lra Lia.
From Flocq Require Import Core IEEE754.BinarySingleNaN IEEE754.Binary IEEE754.Bits.
From Verif Require Import SO3 Angle AngleProofs Angle64.
Local Open Scope R_scope.

(** ** C22 *)
(** both loops terminate on every real; the result is the only number in
    [-pi, pi) equal to the argument up to whole turns *)
Theorem C22_wrap_angle : forall a : R, exists (n0 : nat) (r : R),
  (forall n, (n0 <= n)%nat -> wrap_run n a = Some r) /\
  (forall n r', wrap_run n a = Some r' -> r' = r) /\
  - PI <= r < PI /\ (exists k : Z, r = a + 2 * PI * IZR k) /\
  (forall r', - PI <= r' < PI -> (exists k : Z, r' = a + 2 * PI * IZR k) -> r' = r) /\
  (- PI <= a < PI -> r = a) /\ sin r = sin a /\ cos r = cos a /\ r = wrap_angle a.
Proof.
  intros a. exists (S (Z.to_nat (up (Rabs a)))), (wrap_angle a).
  destruct (wrap_angle_spec a) as [B S].
  split.
  { intros n Hn. pose proof (wrap_run_wrap_angle a) as H. unfold wrap_run in *.
    destruct (while (Datatypes.S _) _ _ a) as [b|] eqn:E1 in H; [|discriminate].
    rewrite (while_mono _ _ _ n _ _ E1 Hn). apply (while_mono _ _ _ n _ _ H Hn). }
  split; [intros n r' H; apply (wrap_run_any n); auto|].
  split; auto. split; auto.
  split. { intros r' B' S'. symmetry. apply wrap_angle_unique; auto. }
  split. { apply wrap_angle_id. }
  destruct (wrap_angle_trig a). auto.
Qed.
Print Assumptions C22_wrap_angle.
Example C22_example : wrap_angle (PI + 1) = 1 - PI /\ wrap_angle PI = - PI /\ wrap_angle (- PI) = - PI.
Proof.
  pose proof pi_ge_1. pose proof PI2_3_2.
  split; [|split]; apply wrap_angle_unique; try lra;
  [exists (-1)%Z | exists (-1)%Z | exists 0%Z]; lra.
Qed.

(** ** C23 *)
(** exact termination condition on every binary64, NaN and infinities included *)
Theorem C23_wrap_angle_double_terminates_iff : forall x : binary64,
  (exists n r, wrap_run64 n x = Some r) <->
  (is_nan 53 1024 x = true \/
   (is_finite 53 1024 x = true /\ Rabs (B2R 53 1024 x) <= 2 ^ 56)).
Proof.
  intros x. replace (2 ^ 56) with (bpow radix2 56) by (rewrite bpow56; lra). split.
  - intros (n & r & H). destruct (is_nan 53 1024 x) eqn:N; auto. right.
    destruct (is_finite 53 1024 x) eqn:F.
    + split; auto. apply Rnot_lt_le. intros L. rewrite (wrap64_stuck x n F L) in H. discriminate.
    + destruct x; try discriminate. rewrite wrap64_inf in H. discriminate.
  - intros [N | [F L]].
    + exists 1%nat, x. apply wrap64_nan; auto.
    + destruct (wrap64_terminates x (conj F L)) as (n & r & H & _). eauto.
Qed.
Print Assumptions C23_wrap_angle_double_terminates_iff.
(** when it terminates on a number the result is a double in [-M_PI, M_PI),
    and the argument itself if it already was there *)
Theorem C23_wrap_angle_double_range : forall (x : binary64) n r,
  is_finite 53 1024 x = true -> wrap_run64 n x = Some r ->
  is_finite 53 1024 r = true /\
  - B2R 53 1024 b64_pi <= B2R 53 1024 r < B2R 53 1024 b64_pi /\
  (- B2R 53 1024 b64_pi <= B2R 53 1024 x < B2R 53 1024 b64_pi -> r = x).
Proof.
  intros x n r F H.
  assert (L : Rabs (B2R 53 1024 x) <= bpow radix2 56).
  { apply Rnot_lt_le. intros L. rewrite (wrap64_stuck x n F L) in H. discriminate. }
  destruct (wrap64_terminates x (conj F L)) as (m & r' & H' & A & B & C). rewrite pi_val.
  replace r with r'; auto.
  unfold wrap_run64 in *.
  destruct (while n _ _ x) as [b|] eqn:E1 in H; [|discriminate].
  destruct (while m _ _ x) as [b'|] eqn:E2 in H'; [|discriminate].
  assert (b = b').
  { apply (while_mono _ _ n (n + m)) in E1; [|lia]. apply (while_mono _ _ m (n + m)) in E2; [|lia]. congruence. }
  subst b'.
  apply (while_mono _ _ n (n + m)) in H; [|lia]. apply (while_mono _ _ m (n + m)) in H'; [|lia]. congruence.
Qed.
Print Assumptions C23_wrap_angle_double_range.
(** 1.5e17 = 0x4380A741A4627800: the loop never ends *)
Theorem C23_wrap_angle_double_terminates_refuted : exists x : binary64,
  is_finite 53 1024 x = true /\ forall n, wrap_run64 n x = None.
Proof.
  exists (b64_of_bits 0x4380A741A4627800). split; [vm_compute; reflexivity|]. intros n.
  apply wrap64_stuck; [vm_compute; reflexivity|].
  assert (E : B2FF 53 1024 (b64_of_bits 0x4380A741A4627800) = F754_finite false 4687500000000000 5) by (vm_compute; reflexivity).
  rewrite <- FF2R_B2FF, E. unfold FF2R, F2R; cbn. rewrite Rabs_right; lra.
Qed.
Print Assumptions C23_wrap_angle_double_terminates_refuted.
(** 10.0 wraps to 10 - 4 M_PI *)
Example C23_example : is_finite 53 1024 (b64_of_bits 0x4024000000000000) = true /\
  option_map bits_of_b64 (wrap_run64 5 (b64_of_bits 0x4024000000000000)) = Some 13836333408526054496%Z.
Proof. split; vm_compute; reflexivity. Qed.
