(** Proofs about the plane index computed in binary32. *)
Require Import Reals List Arith ZArith Lia Lra Psatz Bool.
From Flocq Require Import Core IEEE754.BinarySingleNaN IEEE754.Binary IEEE754.Bits.
Require Import Flocq.Prop.Relative.
From Verif Require Import CreatePoints.
Local Open Scope R_scope.

Notation rn := (round radix2 (FLT_exp (-149) 24) ZnearestE).
Notation G := (generic_format radix2 (FLT_exp (-149) 24)).
Notation val := (B2R 24 128).
Notation fin32 := (is_finite 24 128).
#[local] Instance prec24 : Prec_gt_0 24 := eq_refl.
#[local] Instance vexp24 : Valid_exp (FLT_exp (-149) 24) := FLT_exp_valid (-149) 24.
Notation rN n := (IZR (Z.of_nat n)).

Lemma bpow_pos_Z e : (0 <= e)%Z -> bpow radix2 e = IZR (2 ^ e).
Proof. intros H. rewrite <- IZR_Zpower by auto. reflexivity. Qed.
Lemma G_bpow e : (-149 <= e)%Z -> G (bpow radix2 e).
Proof. intros H. apply generic_format_FLT_bpow; auto. exact prec24. Qed.
Lemma G_int z : (Z.abs z <= 2 ^ 24)%Z -> G (IZR z).
Proof.
  intros H. destruct (Z.eq_dec (Z.abs z) (2 ^ 24)) as [E|E].
  - assert (P : G (IZR (2 ^ 24))) by (rewrite <- bpow_pos_Z by lia; apply G_bpow; lia).
    destruct (Z.abs_eq_or_opp z) as [A|A].
    + rewrite <- A, E. exact P.
    + replace z with (- (2 ^ 24))%Z by lia. rewrite opp_IZR. apply generic_format_opp. exact P.
  - apply generic_format_FLT. exists (Float radix2 z 0).
    + unfold F2R; cbn. ring.
    + cbn [Fnum]. change (Z.pow radix2 24) with (2 ^ 24)%Z. lia.
    + cbn. lia.
Qed.
Lemma rn_le_G x y : x <= y -> G y -> rn x <= y.
Proof. intros H Gy. rewrite <- (round_generic radix2 (FLT_exp (-149) 24) ZnearestE y Gy). apply round_le; auto; typeclasses eauto. Qed.
Lemma G_le_rn x y : x <= y -> G x -> x <= rn y.
Proof. intros H Gy. rewrite <- (round_generic radix2 (FLT_exp (-149) 24) ZnearestE x Gy). apply round_le; auto; typeclasses eauto. Qed.
Lemma rn_mono x y : x <= y -> rn x <= rn y.
Proof. intros H. apply round_le; auto; typeclasses eauto. Qed.
Lemma rn_nonneg x : 0 <= x -> 0 <= rn x.
Proof. intros H. apply G_le_rn; auto. apply generic_format_0. Qed.
Lemma rn_above x : x = 0 \/ bpow radix2 (-100) <= x -> rn x <= x * (1 + / IZR (2 ^ 24)).
Proof.
  intros [->|H]; [rewrite round_0 by typeclasses eauto; lra|].
  pose proof (bpow_gt_0 radix2 (-100)). pose proof (relative_error_N_FLT radix2 (-149) 24 prec24 (fun x => negb (Z.even x)) x) as E.
  rewrite (Rabs_pos_eq x) in E by lra. assert (B : bpow radix2 (-149 + 24 - 1) <= x) by (apply Rle_trans with (2 := H); apply bpow_le; lia). specialize (E B).
  replace (/ 2 * bpow radix2 (- (24) + 1) * x) with (x * / IZR (2 ^ 24)) in E by (cbn; field). apply Rabs_le_inv in E. lra.
Qed.

Lemma f32_val n : (Z.of_nat n <= 2 ^ 32)%Z -> val (f32 n) = rn (rN n) /\ fin32 (f32 n) = true.
Proof.
  intros H. assert (HZ : (Z.of_nat n <= 2 ^ 32)%Z) by lia. unfold f32.
  pose proof (binary_normalize_correct 24 128 eq_refl eq_refl mode_NE (Z.of_nat n) 0 false) as E.
  replace (F2R (Float radix2 (Z.of_nat n) 0)) with (rN n) in E by (unfold F2R; cbn; ring).
  change (round radix2 (SpecFloat.fexp 24 128) (round_mode mode_NE) (rN n)) with (rn (rN n)) in E.
  rewrite Rlt_bool_true in E; [destruct E as (A & B & _); auto|].
  assert (P : 0 <= rN n) by (apply IZR_le; lia). rewrite Rabs_pos_eq by (apply rn_nonneg; auto).
  apply Rle_lt_trans with (bpow radix2 32); [|apply bpow_lt; lia]. apply rn_le_G; [|apply G_bpow; lia].
  rewrite bpow_pos_Z by lia. apply IZR_le; auto.
Qed.

(** the float quotient as a real number *)
Definition quot (i n p : nat) : R := rn (rn (rn (rN i) * rn (rN n)) / rn (rN p)).
Lemma rn_one p : (1 <= p)%nat -> 1 <= rn (rN p).
Proof. intros H. apply G_le_rn; [apply IZR_le; lia|]. change 1 with (bpow radix2 0). apply G_bpow. lia. Qed.
Lemma rn_32 n : (Z.of_nat n <= 2 ^ 32)%Z -> 0 <= rn (rN n) <= bpow radix2 32.
Proof.
  intros H. split; [apply rn_nonneg, IZR_le; lia|]. apply rn_le_G; [|apply G_bpow; lia]. rewrite bpow_pos_Z by lia. apply IZR_le; lia.
Qed.
Lemma quot_nonneg i n p : (Z.of_nat i <= 2 ^ 32)%Z -> (Z.of_nat n <= 2 ^ 32)%Z -> (1 <= p)%nat -> 0 <= quot i n p.
Proof.
  intros Hi Hn Hp. pose proof (rn_one p Hp). destruct (rn_32 i Hi), (rn_32 n Hn). apply rn_nonneg. apply Rmult_le_pos; [|left; apply Rinv_0_lt_compat; lra]. apply rn_nonneg. apply Rmult_le_pos; auto.
Qed.
Lemma index_spec i n p : (Z.of_nat i <= 2 ^ 32)%Z -> (Z.of_nat n <= 2 ^ 32)%Z -> (1 <= Z.of_nat p <= 2 ^ 32)%Z ->
  plane_index i n p = Some (Z.to_nat (Zfloor (quot i n p))).
Proof.
  intros Hi Hn [Hp' Hp2]. assert (Hp : (1 <= p)%nat) by lia. pose proof (rn_one p Hp) as P1. destruct (rn_32 i Hi) as [I0 I1], (rn_32 n Hn) as [N0 N1].
  destruct (f32_val i Hi) as [Vi Fi], (f32_val n Hn) as [Vn Fn], (f32_val p Hp2) as [Vp Fp].
  assert (M0 : 0 <= rn (rN i) * rn (rN n)) by (apply Rmult_le_pos; auto).
  assert (M1 : rn (rN i) * rn (rN n) <= bpow radix2 64).
  { change 64%Z with (32 + 32)%Z. rewrite bpow_plus. apply Rmult_le_compat; auto. }
  assert (R0 : 0 <= rn (rn (rN i) * rn (rN n))) by (apply rn_nonneg; auto).
  assert (R1 : rn (rn (rN i) * rn (rN n)) <= bpow radix2 64) by (apply rn_le_G; auto; apply G_bpow; lia).
  pose proof (Bmult_correct 24 128 eq_refl eq_refl binop_nan_pl32 mode_NE (f32 i) (f32 n)) as M.
  rewrite Vi, Vn in M. change (round radix2 (SpecFloat.fexp 24 128) (round_mode mode_NE) (rn (rN i) * rn (rN n))) with (rn (rn (rN i) * rn (rN n))) in M.
  rewrite Rlt_bool_true in M by (rewrite Rabs_pos_eq by auto; apply Rle_lt_trans with (1 := R1); apply bpow_lt; lia).
  destruct M as (MV & MF & _). rewrite Fi, Fn in MF. cbn [andb] in MF.
  set (a := b32_mult mode_NE (f32 i) (f32 n)). change (val a = rn (rn (rN i) * rn (rN n))) in MV. change (fin32 a = true) in MF.
  assert (Q0 : 0 <= val a / val (f32 p)). { rewrite MV, Vp. apply Rmult_le_pos; auto. left; apply Rinv_0_lt_compat; lra. }
  assert (Q1 : val a / val (f32 p) <= bpow radix2 64).
  { rewrite MV, Vp. apply Rle_trans with (2 := R1). unfold Rdiv. rewrite <- (Rmult_1_r (rn (rn (rN i) * rn (rN n)))) at 2. apply Rmult_le_compat_l; auto.
    rewrite <- Rinv_1. apply Rinv_le; lra. }
  pose proof (Bdiv_correct 24 128 eq_refl eq_refl binop_nan_pl32 mode_NE a (f32 p)) as D.
  assert (NZ : val (f32 p) <> 0) by (rewrite Vp; lra). specialize (D NZ).
  change (round radix2 (SpecFloat.fexp 24 128) (round_mode mode_NE) (val a / val (f32 p))) with (rn (val a / val (f32 p))) in D.
  assert (QQ : 0 <= rn (val a / val (f32 p)) <= bpow radix2 64) by (split; [apply rn_nonneg; auto | apply rn_le_G; auto; apply G_bpow; lia]).
  rewrite Rlt_bool_true in D by (rewrite Rabs_pos_eq by apply QQ; apply Rle_lt_trans with (1 := proj2 QQ); apply bpow_lt; lia).
  destruct D as (DV & DF & _). rewrite MF in DF. unfold plane_index. fold a.
  set (q := b32_div mode_NE a (f32 p)). change (val q = rn (val a / val (f32 p))) in DV. change (fin32 q = true) in DF.
  rewrite DF. do 2 f_equal. apply eq_IZR. rewrite Btrunc_correct, round_FIX_IZR, DV by reflexivity. f_equal. rewrite MV, Vp. fold (quot i n p).
  apply Ztrunc_floor. apply quot_nonneg; auto.
Qed.

Lemma rN_mono a b : (a <= b)%nat -> rN a <= rN b. Proof. intros; apply IZR_le; lia. Qed.
Lemma quot_mono i j n p : (Z.of_nat j <= 2 ^ 32)%Z -> (Z.of_nat n <= 2 ^ 32)%Z -> (1 <= p)%nat -> (i <= j)%nat -> quot i n p <= quot j n p.
Proof.
  intros Hj Hn Hp H. unfold quot. pose proof (rn_one p Hp). destruct (rn_32 n Hn). apply rn_mono. apply Rmult_le_compat_r; [left; apply Rinv_0_lt_compat; lra|].
  apply rn_mono. apply Rmult_le_compat_r; auto. apply rn_mono, rN_mono; auto.
Qed.
Lemma rn_small n : (Z.of_nat n <= 2 ^ 24)%Z -> rn (rN n) = rN n.
Proof. intros H. apply round_generic; [typeclasses eauto|]. apply G_int. lia. Qed.
Lemma rN_pos n : (1 <= n)%nat -> 1 <= rN n. Proof. intros; apply IZR_le; lia. Qed.

(** (1 - 1/p) (1 + u)^2 < 1 for p < 2^23 *)
Lemma quot_range i n p : (1 <= Z.of_nat n <= 2 ^ 24)%Z -> (i < p)%nat -> (Z.of_nat p < 2 ^ 23)%Z -> quot i n p < rN n.
Proof.
  intros [N1' N2] I P. assert (N1 : (1 <= n)%nat) by lia. unfold quot. rewrite (rn_small i), (rn_small n), (rn_small p) by lia.
  destruct i as [|i]; [change (rN 0) with 0; rewrite Rmult_0_l, round_0 by typeclasses eauto; unfold Rdiv; rewrite Rmult_0_l, round_0 by typeclasses eauto; pose proof (rN_pos n N1); lra|].
  set (x := rN (S i)). assert (X1 : 1 <= x) by (apply rN_pos; lia). pose proof (rN_pos n N1) as Y1. set (y := rN n) in *.
  assert (Z1 : x + 1 <= rN p). { unfold x. rewrite <- plus_IZR. apply IZR_le. lia. } set (z := rN p) in *.
  assert (Z2 : z + 1 <= 8388608). { unfold z. rewrite <- plus_IZR. apply IZR_le. lia. }
  assert (B100 : bpow radix2 (-100) <= / 16777216). { replace (/ 16777216) with (bpow radix2 (-24)) by (cbn; lra). apply bpow_le; lia. }
  assert (XY : 1 <= x * y) by nra.
  pose proof (rn_above (x * y)) as A. assert (XY' : bpow radix2 (-100) <= x * y) by (apply Rle_trans with (1 := B100); lra). specialize (A (or_intror XY')). replace (IZR (2 ^ 24)) with 16777216 in A by reflexivity.
  set (m := rn (x * y)) in *. assert (M1 : 1 <= m). { apply G_le_rn; auto. change 1 with (bpow radix2 0). apply G_bpow; lia. }
  assert (B : rn (m / z) <= m / z * (1 + / 16777216)).
  { apply rn_above. right. apply Rle_trans with (1 := B100). apply Rmult_le_reg_r with z; [lra|]. unfold Rdiv. rewrite Rmult_assoc, Rinv_l by lra. lra. }
  apply Rle_lt_trans with (1 := B). apply Rmult_lt_reg_r with z; [lra|]. replace (m / z * (1 + / 16777216) * z) with (m * (1 + / 16777216)) by (field; lra).
  assert (U : m * (1 + / 16777216) <= x * y * ((1 + / 16777216) * (1 + / 16777216))) by nra.
  assert (V : x * y * ((1 + / 16777216) * (1 + / 16777216)) < y * z); [|lra].
  assert (W : x * ((1 + / 16777216) * (1 + / 16777216)) < z).
  { apply Rle_lt_trans with ((z - 1) * ((1 + / 16777216) * (1 + / 16777216))); [apply Rmult_le_compat_r; lra|]. lra. }
  replace (x * y * _) with (y * (x * ((1 + / 16777216) * (1 + / 16777216)))) by ring. apply Rmult_lt_compat_l; lra.
Qed.
Lemma quot_exact i n p : (Z.of_nat (i * n) < 2 ^ 24)%Z -> (Z.of_nat i <= 2 ^ 24)%Z -> (Z.of_nat n <= 2 ^ 24)%Z -> (1 <= Z.of_nat p <= 2 ^ 24)%Z ->
  Zfloor (quot i n p) = Z.of_nat (i * n / p).
Proof.
  intros H I N [P1' P2]. assert (P1 : (1 <= p)%nat) by lia. unfold quot. rewrite (rn_small i), (rn_small n), (rn_small p) by lia. rewrite <- mult_IZR, <- Nat2Z.inj_mul, (rn_small (i * n)) by lia.
  set (m := (i * n)%nat) in *. pose proof (Nat.div_mod m p ltac:(lia)) as DM. pose proof (Nat.mod_upper_bound m p ltac:(lia)) as MB.
  set (k := (m / p)%nat) in *. pose proof (rN_pos p P1) as PP.
  assert (E1 : rN m = rN p * rN k + rN (m mod p)) by (rewrite <- mult_IZR, <- plus_IZR; apply f_equal; lia).
  assert (E2 : 0 <= rN (m mod p) <= rN p - 1). { split; [apply IZR_le; lia|]. rewrite <- minus_IZR. apply IZR_le. lia. }
  apply Zfloor_imp. split.
  - apply G_le_rn. + apply Rmult_le_reg_r with (rN p); [lra|]. unfold Rdiv. rewrite Rmult_assoc, Rinv_l by lra. lra.
    + apply G_int. assert (KM : (k <= m)%nat). { rewrite DM. clear - P1. generalize (m mod p)%nat. intros. destruct p; [lia|]. lia. } lia.
  - rewrite plus_IZR. assert (MM : rN m + 1 <= 16777216) by (rewrite <- plus_IZR; apply IZR_le; lia).
    assert (B : rn (rN m / rN p) <= rN m / rN p * (1 + / 16777216)).
    { apply rn_above. destruct (Nat.eq_dec m 0) as [->|MZ]; [left; change (rN 0) with 0; unfold Rdiv; ring|]. right.
      apply Rle_trans with (bpow radix2 (-24)); [apply bpow_le; lia|]. replace (bpow radix2 (-24)) with (/ 16777216) by (cbn; lra).
      pose proof (rN_pos m ltac:(lia)). assert (rN p <= 16777216) by (apply IZR_le; lia).
      apply Rmult_le_reg_r with (rN p); [lra|]. unfold Rdiv. rewrite Rmult_assoc, Rinv_l by lra. lra. }
    apply Rle_lt_trans with (1 := B). apply Rmult_lt_reg_r with (rN p); [lra|]. replace (rN m / rN p * (1 + / 16777216) * rN p) with (rN m + rN m * / 16777216) by (field; lra). lra.
Qed.
