(** Proofs about wrap_angle in binary64. *)
Require Import Reals ZArith Lra Lia Psatz.
From Flocq Require Import Core IEEE754.BinarySingleNaN IEEE754.Binary IEEE754.Bits.
From Verif Require Import SO3 Angle AngleProofs.
Local Open Scope R_scope.

Notation rnd := (round radix2 (FLT_exp (-1074) 53) ZnearestE).
Notation F := (generic_format radix2 (FLT_exp (-1074) 53)).
Notation v := (B2R 53 1024).
Notation fin := (is_finite 53 1024).

Definition p64 : R := 7074237752028440 / 2251799813685248.
Lemma p64_bounds : 3.14 < p64 < 3.15. Proof. unfold p64; lra. Qed.
Lemma pi_fin : fin b64_pi = true. Proof. vm_compute; reflexivity. Qed.
Lemma pi2_fin : fin b64_pi2 = true. Proof. vm_compute; reflexivity. Qed.
Lemma pi_val : v b64_pi = p64.
Proof.
  assert (E : B2FF 53 1024 b64_pi = F754_finite false 7074237752028440 (-51)) by (vm_compute; reflexivity).
  rewrite <- FF2R_B2FF, E. unfold FF2R, F2R, p64; cbn. field.
Qed.
Lemma pi2_val : v b64_pi2 = 2 * p64.
Proof.
  assert (E : B2FF 53 1024 b64_pi2 = F754_finite false 7074237752028440 (-50)) by (vm_compute; reflexivity).
  rewrite <- FF2R_B2FF, E. unfold FF2R, F2R, p64; cbn. field.
Qed.
Lemma mpi_fin : fin (b64_opp b64_pi) = true. Proof. vm_compute; reflexivity. Qed.
Lemma mpi_val : v (b64_opp b64_pi) = - p64.
Proof. unfold b64_opp. rewrite B2R_Bopp. rewrite pi_val. reflexivity. Qed.

#[local] Instance prec53 : Prec_gt_0 53 := eq_refl.
#[local] Instance val_exp : Valid_exp (FLT_exp (-1074) 53) := FLT_exp_valid (-1074) 53.
Lemma v_F x : F (v x). Proof. apply (generic_format_B2R 53 1024). Qed.
Lemma p_F : F p64. Proof. rewrite <- pi_val. apply v_F. Qed.
Lemma mp_F : F (- p64). Proof. rewrite <- mpi_val. apply v_F. Qed.

Lemma lt_fin x y : fin x = true -> fin y = true -> b64_lt x y = Rlt_bool (v x) (v y).
Proof.
  intros Hx Hy. unfold b64_lt, b64_compare. rewrite Bcompare_correct by auto.
  unfold Rlt_bool. destruct (Rcompare (v x) (v y)); reflexivity.
Qed.
Lemma ge_fin x y : fin x = true -> fin y = true -> b64_ge x y = Rle_bool (v y) (v x).
Proof.
  intros Hx Hy. unfold b64_ge, b64_compare. rewrite Bcompare_correct by auto.
  destruct (Rcompare_spec (v x) (v y)).
  - rewrite Rle_bool_false; auto.
  - rewrite Rle_bool_true; auto. lra.
  - rewrite Rle_bool_true; auto. lra.
Qed.

(** rounding never overflows in the directions used *)
Lemma v_lt_max x : Rabs (v x) < bpow radix2 1024.
Proof. apply abs_B2R_lt_emax. Qed.
Lemma plus_ok x : fin x = true -> v x <= - p64 ->
  v (b64_plus mode_NE x b64_pi2) = rnd (v x + 2 * p64) /\ fin (b64_plus mode_NE x b64_pi2) = true.
Proof.
  intros Hx L. pose proof p64_bounds as P.
  pose proof (Bplus_correct 53 1024 eq_refl eq_refl binop_nan_pl64 mode_NE x b64_pi2 Hx pi2_fin) as H.
  rewrite pi2_val in H. change (round radix2 (SpecFloat.fexp 53 1024) (round_mode mode_NE) (v x + 2 * p64))
    with (rnd (v x + 2 * p64)) in H.
  rewrite Rlt_bool_true in H. { destruct H as (A & B & _). auto. }
  apply Rle_lt_trans with (Rabs (v x)); [|apply v_lt_max].
  rewrite (Rabs_left1 (v x)) by lra.
  assert (A : v x <= rnd (v x + 2 * p64)).
  { rewrite <- (round_generic radix2 (FLT_exp (-1074) 53) ZnearestE (v x)) at 1; [|apply v_F]. apply round_le; auto with typeclass_instances. lra. }
  assert (B : rnd (v x + 2 * p64) <= p64).
  { rewrite <- (round_generic radix2 (FLT_exp (-1074) 53) ZnearestE p64) at 2; [|apply p_F]. apply round_le; auto with typeclass_instances. lra. }
  apply Rabs_le. lra.
Qed.
Lemma minus_ok x : fin x = true -> p64 <= v x ->
  v (b64_minus mode_NE x b64_pi2) = rnd (v x - 2 * p64) /\ fin (b64_minus mode_NE x b64_pi2) = true.
Proof.
  intros Hx L. pose proof p64_bounds as P.
  pose proof (Bminus_correct 53 1024 eq_refl eq_refl binop_nan_pl64 mode_NE x b64_pi2 Hx pi2_fin) as H.
  rewrite pi2_val in H. change (round radix2 (SpecFloat.fexp 53 1024) (round_mode mode_NE) (v x - 2 * p64))
    with (rnd (v x - 2 * p64)) in H.
  rewrite Rlt_bool_true in H. { destruct H as (A & B & _). auto. }
  apply Rle_lt_trans with (Rabs (v x)); [|apply v_lt_max].
  rewrite (Rabs_right (v x)) by lra.
  assert (A : rnd (v x - 2 * p64) <= v x).
  { rewrite <- (round_generic radix2 (FLT_exp (-1074) 53) ZnearestE (v x)) at 2; [|apply v_F]. apply round_le; auto with typeclass_instances. lra. }
  assert (B : - p64 <= rnd (v x - 2 * p64)).
  { rewrite <- (round_generic radix2 (FLT_exp (-1074) 53) ZnearestE (- p64)) at 1; [|apply mp_F]. apply round_le; auto with typeclass_instances. lra. }
  apply Rabs_le. lra.
Qed.
Lemma rnd_opp x : rnd (- x) = - rnd x.
Proof. apply round_NE_opp. Qed.

(** ** progress below 2^56 *)
Lemma ulp_le_8 y : Rabs y < bpow radix2 56 -> ulp radix2 (FLT_exp (-1074) 53) y <= 8.
Proof.
  intros L. destruct (Req_dec y 0) as [->|N].
  - rewrite ulp_FLT_0; auto with typeclass_instances. change 8 with (bpow radix2 3). apply bpow_le. lia.
  - rewrite ulp_neq_0 by auto. change 8 with (bpow radix2 3). apply bpow_le. unfold cexp, FLT_exp.
    assert (mag radix2 y <= 56)%Z by (apply mag_le_bpow; auto). lia.
Qed.
Lemma bpow56 : bpow radix2 56 = 72057594037927936. Proof. reflexivity. Qed.
Lemma down x : p64 <= x <= bpow radix2 56 -> rnd (x - 2 * p64) <= x - 2.
Proof.
  intros L. pose proof p64_bounds as P.
  pose proof (error_le_half_ulp radix2 (FLT_exp (-1074) 53) (fun z => negb (Z.even z)) (x - 2 * p64)) as E.
  change (Znearest (fun z => negb (Z.even z))) with ZnearestE in E.
  assert (U : ulp radix2 (FLT_exp (-1074) 53) (x - 2 * p64) <= 8).
  { apply ulp_le_8. rewrite bpow56 in *. apply Rabs_lt. lra. }
  apply Rabs_le_inv in E. lra.
Qed.

(** ** stuck above 2^56 *)
Lemma mult16 x : F x -> bpow radix2 56 <= x -> exists k : Z, x = 16 * IZR k.
Proof.
  intros Hx L. assert (H : generic_format radix2 (FIX_exp 4) x).
  { apply generic_inclusion_ge with (fexp1 := FLT_exp (-1074) 53) (e1 := 56%Z); auto.
    - intros e He. unfold FIX_exp, FLT_exp. lia.
    - rewrite Rabs_right; auto. apply Rle_ge. pose proof (bpow_gt_0 radix2 56). lra. }
  destruct (FIX_format_generic radix2 4 x H) as [[m e] E1 E2]. cbn in E2. subst e. exists m. rewrite E1. unfold F2R; cbn. lra.
Qed.
Lemma stuck x : F x -> bpow radix2 56 < x -> rnd (x - 2 * p64) = x.
Proof.
  intros Hx L. pose proof p64_bounds as P.
  assert (F56 : F (bpow radix2 56)) by (apply generic_format_bpow; unfold FLT_exp; lia).
  destruct (mult16 x Hx) as [k Ek]; [lra|].
  destruct (mult16 _ F56) as [k0 Ek0]; [lra|].
  assert (k0 + 1 <= k)%Z by (apply lt_IZR in L || (rewrite Ek, Ek0 in L; assert (k0 < k)%Z by (apply lt_IZR; lra); lia)).
  assert (IZR k0 + 1 <= IZR k) by (rewrite <- (plus_IZR k0 1); apply IZR_le; auto).
  remember (x - 2 * p64) as y eqn:Hy.
  assert (Ay : bpow radix2 56 <= rnd y).
  { rewrite <- (round_generic radix2 (FLT_exp (-1074) 53) ZnearestE (bpow radix2 56)) by auto.
    apply round_le; auto with typeclass_instances. lra. }
  assert (By : rnd y <= x).
  { rewrite <- (round_generic radix2 (FLT_exp (-1074) 53) ZnearestE x) by auto.
    apply round_le; auto with typeclass_instances. lra. }
  assert (Fy : F (rnd y)) by (apply generic_format_round; auto with typeclass_instances).
  destruct (mult16 _ Fy Ay) as [j Ej].
  destruct (round_N_pt radix2 (FLT_exp (-1074) 53) (fun z => negb (Z.even z)) y) as [_ N].
  specialize (N x Hx). change (Znearest (fun z => negb (Z.even z))) with ZnearestE in N.
  destruct (Req_dec (rnd y) x) as [|Ne]; auto. exfalso.
  assert (j < k)%Z by (apply lt_IZR; lra).
  assert (IZR j + 1 <= IZR k) by (rewrite <- (plus_IZR j 1); apply IZR_le; lia).
  rewrite (Rabs_right (x - y)) in N by lra.
  rewrite Rabs_left1 in N by lra. lra.
Qed.

(** ** whole loop *)
Lemma while_diverges {A} (P : A -> Prop) c (f : A -> A) :
  (forall x, P x -> c x = true /\ P (f x)) -> forall n x, P x -> while n c f x = None.
Proof. intros H n. induction n; intros x Hx; cbn; auto. destruct (H x Hx) as [-> Hf]. auto. Qed.

Lemma INR_above x : exists n, x < INR n.
Proof.
  exists (Z.to_nat (Z.max 0 (up x))). rewrite INR_IZR_INZ, Z2Nat.id by lia.
  destruct (archimed x) as [A _]. apply Rlt_le_trans with (IZR (up x)); auto. apply IZR_le. lia.
Qed.
Definition in_range (x : binary64) : Prop := fin x = true /\ Rabs (v x) <= bpow radix2 56.

Lemma loop1_total x : in_range x -> exists n r,
  while n (fun a => b64_lt a (b64_opp b64_pi)) (fun a => b64_plus mode_NE a b64_pi2) x = Some r /\
  fin r = true /\ - p64 <= v r <= bpow radix2 56 /\ (- p64 <= v x -> r = x).
Proof.
  intros [Hf Hr]. pose proof p64_bounds as P.
  set (c := fun a => b64_lt a (b64_opp b64_pi)). set (f := fun a => b64_plus mode_NE a b64_pi2).
  set (Q := fun a => fin a = true /\ - bpow radix2 56 <= v a <= bpow radix2 56).
  assert (HQ : Q x). { split; auto. apply Rabs_le_inv; auto. }
  assert (St : forall a, Q a -> c a = true -> Q (f a) /\ 0 <= - v a /\ - v (f a) <= - v a - 2).
  { intros a [Fa [La Ua]] Ca. unfold c in Ca. rewrite lt_fin, mpi_val in Ca by auto using mpi_fin.
    destruct (Rlt_bool_spec (v a) (- p64)); [|discriminate].
    destruct (plus_ok a Fa) as [E Ff]; [lra|]. fold (f a) in E, Ff.
    pose proof (down (- v a)) as D. 
    replace (v a + 2 * p64) with (- (- v a - 2 * p64)) in E by ring. rewrite rnd_opp in E.
    assert (B : rnd (- v a - 2 * p64) >= - p64).
    { rewrite <- (round_generic radix2 (FLT_exp (-1074) 53) ZnearestE (- p64)) by apply mp_F.
      apply Rle_ge, round_le; auto with typeclass_instances. lra. }
    rewrite bpow56 in *. unfold Q. rewrite bpow56. split; [split; auto|]; lra. }
  destruct (INR_above (- v x / 2)) as [n Hn].
  destruct (while_total Q c f (fun a => - v a) 2 ltac:(lra) St n x HQ) as [r Hr']. lra.
  exists (S n), r. split; auto.
  pose proof (while_inv Q c f (fun a A B => proj1 (St a A B)) _ _ _ HQ Hr') as [Fr Br].
  split; auto. split.
  - pose proof (while_exit _ _ _ _ _ Hr') as X. unfold c in X. rewrite lt_fin, mpi_val in X by auto using mpi_fin.
    destruct (Rlt_bool_spec (v r) (- p64)); [discriminate | lra].
  - intros Hx. cbn [while] in Hr'. replace (c x) with false in Hr'. congruence.
    unfold c. rewrite lt_fin, mpi_val by auto using mpi_fin. rewrite Rlt_bool_false; auto.
Qed.
Lemma loop2_total x : fin x = true -> - p64 <= v x <= bpow radix2 56 -> exists n r,
  while n (fun a => b64_ge a b64_pi) (fun a => b64_minus mode_NE a b64_pi2) x = Some r /\
  fin r = true /\ - p64 <= v r < p64 /\ (v x < p64 -> r = x).
Proof.
  intros Hf Hr. pose proof p64_bounds as P.
  set (c := fun a => b64_ge a b64_pi). set (f := fun a => b64_minus mode_NE a b64_pi2).
  set (Q := fun a => fin a = true /\ - p64 <= v a <= bpow radix2 56).
  assert (HQ : Q x) by (split; auto).
  assert (St : forall a, Q a -> c a = true -> Q (f a) /\ 0 <= v a /\ v (f a) <= v a - 2).
  { intros a [Fa [La Ua]] Ca. unfold c in Ca. rewrite ge_fin, pi_val in Ca by auto using pi_fin.
    destruct (Rle_bool_spec p64 (v a)); [|discriminate].
    destruct (minus_ok a Fa) as [E Ff]; [lra|]. fold (f a) in E, Ff.
    pose proof (down (v a)) as D. 
    assert (B : rnd (v a - 2 * p64) >= - p64).
    { rewrite <- (round_generic radix2 (FLT_exp (-1074) 53) ZnearestE (- p64)) by apply mp_F.
      apply Rle_ge, round_le; auto with typeclass_instances. lra. }
    rewrite bpow56 in *. unfold Q. rewrite bpow56. split; [split; auto|]; lra. }
  destruct (INR_above (v x / 2)) as [n Hn].
  destruct (while_total Q c f (fun a => v a) 2 ltac:(lra) St n x HQ) as [r Hr']. lra.
  exists (S n), r. split; auto.
  pose proof (while_inv Q c f (fun a A B => proj1 (St a A B)) _ _ _ HQ Hr') as [Fr Br].
  split; auto. split.
  - pose proof (while_exit _ _ _ _ _ Hr') as X. unfold c in X. rewrite ge_fin, pi_val in X by auto using pi_fin.
    destruct (Rle_bool_spec p64 (v r)); [discriminate | lra].
  - intros Hx. cbn [while] in Hr'. replace (c x) with false in Hr'. congruence.
    unfold c. rewrite ge_fin, pi_val by auto using pi_fin. rewrite Rle_bool_false; auto.
Qed.
Lemma wrap64_terminates x : in_range x -> exists n r, wrap_run64 n x = Some r /\
  fin r = true /\ - p64 <= v r < p64 /\ (- p64 <= v x < p64 -> r = x).
Proof.
  intros H. destruct (loop1_total x H) as (n1 & a & E1 & Fa & Ba & Ia).
  destruct (loop2_total a Fa Ba) as (n2 & r & E2 & Fr & Br & Ir).
  exists (n1 + n2)%nat, r. split.
  - unfold wrap_run64. rewrite (while_mono _ _ _ (n1 + n2) _ _ E1) by lia.
    apply (while_mono _ _ _ (n1 + n2) _ _ E2). lia.
  - split; auto. split; auto. intros [L U]. rewrite Ir; auto. rewrite Ia; auto.
Qed.
Lemma wrap64_nan x n : is_nan 53 1024 x = true -> wrap_run64 (S n) x = Some x.
Proof.
  intros H. unfold wrap_run64. cbn [while].
  assert (E : forall y, b64_compare x y = None) by (intros y; destruct x; try discriminate; reflexivity).
  unfold b64_lt, b64_ge. rewrite !E. reflexivity.
Qed.
Lemma wrap64_inf s n : wrap_run64 n (B754_infinity 53 1024 s) = None.
Proof.
  unfold wrap_run64. destruct s.
  - rewrite (while_diverges (fun a => a = B754_infinity 53 1024 true)); auto.
    intros a ->. split; vm_compute; reflexivity.
  - destruct n; auto.
    replace (while (S n) _ _ (B754_infinity 53 1024 false)) with (Some (B754_infinity 53 1024 false)) by (cbn [while]; reflexivity).
    apply (while_diverges (fun a => a = B754_infinity 53 1024 false)); auto.
    intros a ->. split; vm_compute; reflexivity.
Qed.
Lemma wrap64_stuck x n : fin x = true -> bpow radix2 56 < Rabs (v x) -> wrap_run64 n x = None.
Proof.
  intros Hf L. pose proof p64_bounds as P. unfold wrap_run64.
  destruct (Rle_or_lt (v x) 0) as [Neg|Pos].
  - rewrite Rabs_left1 in L by auto.
    rewrite (while_diverges (fun a => fin a = true /\ v a = v x)); auto.
    intros a [Fa Ea]. rewrite lt_fin, mpi_val by auto using mpi_fin.
    destruct (plus_ok a Fa) as [E Ff]. { rewrite bpow56 in L. lra. }
    split. { apply Rlt_bool_true. rewrite bpow56 in L. lra. }
    split; auto. rewrite E. replace (v a + 2 * p64) with (- (- v x - 2 * p64)) by lra.
    rewrite rnd_opp, stuck; auto. lra. apply generic_format_opp, v_F.
  - rewrite Rabs_right in L by lra. destruct n; auto.
    assert (E1 : b64_lt x (b64_opp b64_pi) = false).
    { rewrite lt_fin, mpi_val by auto using mpi_fin. apply Rlt_bool_false. lra. }
    replace (while (S n) _ _ x) with (Some x) by (cbn [while]; rewrite E1; reflexivity).
    apply (while_diverges (fun a => fin a = true /\ v a = v x)); auto.
    intros a [Fa Ea]. rewrite ge_fin, pi_val by auto using pi_fin.
    destruct (minus_ok a Fa) as [E Ff]. { rewrite bpow56 in L. lra. }
    split. { apply Rle_bool_true. rewrite bpow56 in L. lra. }
    split; auto. rewrite E, Ea. apply stuck; auto. apply v_F.
Qed.
