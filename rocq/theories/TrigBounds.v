(** Taylor bounds for sin and cos on [0,pi], from the standard library's
    [sin_bound]/[cos_bound]. *)
Require Import Reals Lra Psatz.
Local Open Scope R_scope.

Lemma sin_taylor5 a : 0 <= a <= PI ->
  a - a^3/6 <= sin a <= a - a^3/6 + a^5/120.
Proof.
  intros [H0 H1]. pose proof (sin_bound a 0 H0 H1) as [L U].
  unfold sin_approx, sum_f_R0, sin_term in L, U. simpl in L, U.
  split.
  - eapply Rle_trans; [|exact L]. right. field.
  - eapply Rle_trans; [exact U|]. right. field.
Qed.
Lemma sin_taylor7 a : 0 <= a <= PI ->
  a - a^3/6 + a^5/120 - a^7/5040 <= sin a.
Proof.
  intros [H0 H1]. pose proof (sin_bound a 1 H0 H1) as [L U].
  unfold sin_approx, sum_f_R0, sin_term in L. simpl in L.
  eapply Rle_trans; [|exact L]. right. field.
Qed.
Lemma cos_taylor4 a : - PI / 2 <= a <= PI / 2 ->
  1 - a^2/2 <= cos a <= 1 - a^2/2 + a^4/24.
Proof.
  intros [H0 H1]. pose proof (cos_bound a 0 H0 H1) as [L U].
  unfold cos_approx, sum_f_R0, cos_term in L, U. simpl in L, U.
  split.
  - eapply Rle_trans; [|exact L]. right. field.
  - eapply Rle_trans; [exact U|]. right. field.
Qed.
Lemma cos_taylor6 a : - PI / 2 <= a <= PI / 2 ->
  1 - a^2/2 + a^4/24 - a^6/720 <= cos a.
Proof.
  intros [H0 H1]. pose proof (cos_bound a 1 H0 H1) as [L _].
  unfold cos_approx, sum_f_R0, cos_term in L. simpl in L.
  eapply Rle_trans; [|exact L]. right. field.
Qed.
Lemma PI_gt_3 : 3 < PI.
Proof. pose proof PI2_3_2. lra. Qed.
