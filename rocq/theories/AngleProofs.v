(** Proofs about wrap_angle over the reals. *)
Require Import Reals ZArith Lra Lia Psatz.
From Verif Require Import SO3 Angle.
Local Open Scope R_scope.

Lemma while_mono {A} c (f : A -> A) n : forall m x r, while n c f x = Some r -> (n <= m)%nat -> while m c f x = Some r.
Proof.
  induction n as [|n IH]; intros [|m] x r H L; cbn in *; try discriminate; try lia.
  destruct (c x); auto. apply IH; auto. lia.
Qed.
Lemma while_exit {A} c (f : A -> A) n : forall x r, while n c f x = Some r -> c r = false.
Proof.
  induction n as [|n IH]; intros x r H; cbn in H; try discriminate.
  destruct (c x) eqn:E; [eapply IH; eauto | injection H as <-; auto].
Qed.
Lemma while_inv {A} (P : A -> Prop) c (f : A -> A) : (forall x, P x -> c x = true -> P (f x)) ->
  forall n x r, P x -> while n c f x = Some r -> P r.
Proof.
  intros HP n. induction n as [|n IH]; intros x r Hx H; cbn in H; try discriminate.
  destruct (c x) eqn:E; [eapply IH; [|eauto]; auto | injection H as <-; auto].
Qed.
(** a loop whose variant drops by at least d > 0 and stays below V *)
Lemma while_total {A} (P : A -> Prop) c (f : A -> A) (v : A -> R) (d : R) : 0 < d ->
  (forall x, P x -> c x = true -> P (f x) /\ 0 <= v x /\ v (f x) <= v x - d) ->
  forall n x, P x -> v x < INR n * d -> exists r, while (S n) c f x = Some r.
Proof.
  intros Hd H n. induction n as [|n IH]; intros x Hx L; cbn [while].
  - destruct (c x) eqn:E; [|eauto]. destruct (H x Hx E) as (_ & B & _). cbn in L. lra.
  - destruct (c x) eqn:E; [|eauto]. destruct (H x Hx E) as (Q & B & C).
    apply IH; auto. rewrite S_INR in L. lra.
Qed.

Lemma Rltb_iff a b : Rltb a b = true <-> a < b.
Proof. unfold Rltb. destruct (Rlt_dec a b); split; intros; auto; try discriminate; lra. Qed.
Lemma Rltb_niff a b : Rltb a b = false <-> b <= a.
Proof. unfold Rltb. destruct (Rlt_dec a b); split; intros; auto; try discriminate; lra. Qed.
Lemma Rleb_iff a b : Rleb a b = true <-> a <= b.
Proof. unfold Rleb. destruct (Rle_dec a b); split; intros; auto; try discriminate; lra. Qed.
Lemma Rleb_niff a b : Rleb a b = false <-> b < a.
Proof. unfold Rleb. destruct (Rle_dec a b); split; intros; auto; try discriminate; lra. Qed.

(** congruent modulo a whole number of turns *)
Definition same_angle (a b : R) : Prop := exists k : Z, a = b + 2 * PI * IZR k.
Lemma same_angle_trans a b c : same_angle a b -> same_angle b c -> same_angle a c.
Proof. intros [k ->] [l ->]. exists (l + k)%Z. rewrite plus_IZR. lra. Qed.
Lemma same_angle_refl a : same_angle a a. Proof. exists 0%Z. lra. Qed.
Lemma same_angle_sym a b : same_angle a b -> same_angle b a.
Proof. intros [k ->]. exists (- k)%Z. rewrite opp_IZR. lra. Qed.

Lemma pi_ge_1 : 1 < PI. Proof. pose proof PI2_3_2. lra. Qed.

Lemma wrap_run_total n a : Rabs a < INR n -> exists r, wrap_run (S n) a = Some r.
Proof.
  intros L. pose proof pi_ge_1 as P1. unfold wrap_run.
  destruct (while_total (fun _ => True) (fun a => Rltb a (- PI)) (fun a => a + 2 * PI) (fun x => - x) 1 ltac:(lra)) with (n := n) (x := a)
    as [b Hb]; auto.
  { intros x _ E. apply Rltb_iff in E. repeat split; lra. }
  { revert L. unfold Rabs. destruct (Rcase_abs a); lra. }
  rewrite Hb.
  assert (Bd : b < INR n \/ b < PI).
  { destruct (Rlt_or_le a (-PI)) as [La|La].
    - right.
      apply (while_inv (fun x => x < PI) _ _) in Hb; auto; try lra.
      intros x Hx E. apply Rltb_iff in E. lra.
    - left. cbn [while] in Hb. rewrite (proj2 (Rltb_niff a (-PI)) La) in Hb. injection Hb as <-.
      revert L. unfold Rabs. destruct (Rcase_abs a); lra. }
  destruct Bd as [Bd|Bd].
  - apply (while_total (fun _ => True) _ _ (fun x => x) 1 ltac:(lra)); auto; try lra.
    intros x _ E. apply Rleb_iff in E. repeat split; lra.
  - exists b. cbn [while]. rewrite (proj2 (Rleb_niff PI b)); auto.
Qed.
Lemma wrap_run_spec n a r : wrap_run n a = Some r -> - PI <= r < PI /\ same_angle r a.
Proof.
  pose proof pi_ge_1 as P1. unfold wrap_run.
  destruct (while n (fun a => Rltb a (- PI)) (fun a => a + 2 * PI) a) as [b|] eqn:E1; [|discriminate].
  intros E2.
  pose proof (while_exit _ _ _ _ _ E1) as X1. apply Rltb_niff in X1.
  pose proof (while_exit _ _ _ _ _ E2) as X2. apply Rleb_niff in X2.
  assert (S1 : same_angle b a).
  { apply (while_inv (fun x => same_angle x a) _ _) in E1; auto using same_angle_refl.
    intros x [k ->] _. exists (k + 1)%Z. rewrite plus_IZR. lra. }
  apply (while_inv (fun x => - PI <= x /\ same_angle x a) _ _) in E2.
  - tauto.
  - intros x [L [k ->]] E. apply Rleb_iff in E. split; [lra|]. exists (k - 1)%Z. rewrite minus_IZR. lra.
  - split; auto.
Qed.
Lemma wrap_run_wrap_angle a : wrap_run (S (Z.to_nat (up (Rabs a)))) a = Some (wrap_angle a).
Proof.
  unfold wrap_angle. destruct (wrap_run_total (Z.to_nat (up (Rabs a))) a) as [r Hr].
  - rewrite INR_IZR_INZ, Z2Nat.id.
    + destruct (archimed (Rabs a)); lra.
    + apply le_IZR. destruct (archimed (Rabs a)). pose proof (Rabs_pos a). lra.
  - rewrite Hr. reflexivity.
Qed.
Lemma wrap_angle_spec a : - PI <= wrap_angle a < PI /\ same_angle (wrap_angle a) a.
Proof. eapply wrap_run_spec. apply wrap_run_wrap_angle. Qed.
Lemma wrap_run_any n a r : wrap_run n a = Some r -> r = wrap_angle a.
Proof.
  intros H. pose proof (wrap_run_wrap_angle a) as H'. unfold wrap_run in *. set (m := S _) in *. clearbody m.
  destruct (while n _ _ a) as [b|] eqn:E1 in H; [|discriminate].
  destruct (while m _ _ a) as [b'|] eqn:E2 in H'; [|discriminate].
  assert (b = b').
  { apply (while_mono _ _ n (n + m)) in E1; [|lia]. apply (while_mono _ _ m (n + m)) in E2; [|lia]. congruence. }
  subst b'.
  apply (while_mono _ _ n (n + m)) in H; [|lia]. apply (while_mono _ _ m (n + m)) in H'; [|lia]. congruence.
Qed.
Lemma same_angle_unique a b : - PI <= a < PI -> - PI <= b < PI -> same_angle a b -> a = b.
Proof.
  intros A B [k ->]. pose proof pi_ge_1.
  assert (k = 0)%Z.
  { assert (k < 1)%Z by (apply lt_IZR; nra). assert (-1 < k)%Z by (apply lt_IZR; nra). lia. }
  subst k. lra.
Qed.
Lemma wrap_angle_unique a r : - PI <= r < PI -> same_angle r a -> wrap_angle a = r.
Proof.
  intros B S. destruct (wrap_angle_spec a) as [B' S']. apply same_angle_unique; auto.
  eapply same_angle_trans; eauto. apply same_angle_sym; auto.
Qed.
Lemma wrap_angle_id a : - PI <= a < PI -> wrap_angle a = a.
Proof. intros. apply wrap_angle_unique; auto using same_angle_refl. Qed.
Lemma wrap_angle_idem a : wrap_angle (wrap_angle a) = wrap_angle a.
Proof. apply wrap_angle_id. apply wrap_angle_spec. Qed.
Lemma wrap_angle_same a b : same_angle a b -> wrap_angle a = wrap_angle b.
Proof.
  intros H. apply wrap_angle_unique. apply wrap_angle_spec.
  eapply same_angle_trans. apply wrap_angle_spec. apply same_angle_sym; auto.
Qed.
Lemma sin_period_Z a k : sin (a + 2 * PI * IZR k) = sin a.
Proof.
  destruct (Z_le_gt_dec 0 k) as [L|L].
  - rewrite <- (Z2Nat.id k L), <- INR_IZR_INZ. replace (2 * PI * INR (Z.to_nat k)) with (2 * INR (Z.to_nat k) * PI) by ring. apply sin_period.
  - replace k with (- (- k))%Z by lia. rewrite opp_IZR.
    rewrite <- (sin_period _ (Z.to_nat (- k))), INR_IZR_INZ, Z2Nat.id by lia. f_equal. lra.
Qed.
Lemma cos_period_Z a k : cos (a + 2 * PI * IZR k) = cos a.
Proof. rewrite <- !sin_shift. rewrite <- (sin_period_Z (PI / 2 - a) (- k)). f_equal. rewrite opp_IZR. lra. Qed.
Lemma same_angle_trig a b : same_angle a b -> sin a = sin b /\ cos a = cos b.
Proof. intros [k ->]. split; [apply sin_period_Z | apply cos_period_Z]. Qed.
Lemma wrap_angle_trig a : sin (wrap_angle a) = sin a /\ cos (wrap_angle a) = cos a.
Proof. apply same_angle_trig, wrap_angle_spec. Qed.
