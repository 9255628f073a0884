(** Arun's method: optimality, uniqueness, rejection. *)
Require Import Reals List Arith Lia Lra Psatz Bool.
From Verif Require Import Lin LinFacts SO3 SE3 SpecGeom SO3Ln SE3Alg Sums DenseProofs Registration SpecRegistration.
Import ListNotations.
Local Open Scope R_scope.

Lemma Rltb_true x y : Rltb x y = true <-> x < y.
Proof. unfold Rltb. destruct (Rlt_dec x y); split; intros; auto; discriminate || lra. Qed.
Lemma Rltb_false x y : Rltb x y = false <-> y <= x.
Proof. unfold Rltb. destruct (Rlt_dec x y); split; intros; auto; try discriminate; lra. Qed.

(** ** sums over the correspondences *)
Definition pairs := list (V3 * V3).
Definition xs (l : pairs) := map fst l.
Definition ys (l : pairs) := map snd l.
Lemma split_pairs X Y : length Y = length X -> exists l, xs l = X /\ ys l = Y.
Proof.
  revert Y. induction X as [|x X IH]; intros [|y Y] H; cbn in H; try discriminate; [exists []; auto|].
  injection H as H. destruct (IH Y H) as (l & A & B). exists ((x, y) :: l). unfold xs, ys in *. cbn. rewrite A, B. auto.
Qed.
Lemma sq_error_pairs T l : sq_error T (xs l) (ys l) = lsum l (fun p => v3sqn (v3sub (snd p) (move T (fst p)))).
Proof. induction l as [|[x y] l IH]; [reflexivity|]. rewrite lsum_cons. cbn. rewrite <- IH. reflexivity. Qed.
Lemma v3sum_lsum X : v3sum X = mkV3 (lsum X vx) (lsum X vy) (lsum X vz).
Proof. induction X as [|x X IH]; [reflexivity|]. cbn [v3sum fold_right]. fold (v3sum X). rewrite IH, !lsum_cons. reflexivity. Qed.
Lemma combine_pairs {A B C D} (f : A -> C) (g : B -> D) (l : list (A * B)) :
  combine (map f (map fst l)) (map g (map snd l)) = map (fun p => (f (fst p), g (snd p))) l.
Proof. induction l as [|[a b] l IH]; cbn; [auto|]. rewrite IH. reflexivity. Qed.
Definition qpairs (l : pairs) : pairs := map (fun p => (v3sub (fst p) (mean (xs l)), v3sub (snd p) (mean (ys l)))) l.
Lemma gram_pairs l : gram (centred (xs l)) (centred (ys l)) = m3sum (map (fun p => m3outer (fst p) (snd p)) (qpairs l)).
Proof. unfold gram, centred, xs, ys, qpairs. rewrite combine_pairs. reflexivity. Qed.
Lemma lsum_const {A} (l : list A) c : lsum l (fun _ => c) = INR (length l) * c.
Proof. induction l as [|a l IH]; [rewrite lsum_nil; cbn; ring|]. rewrite lsum_cons, IH. cbn [length]. rewrite S_INR. ring. Qed.
Lemma mean_centred X : v3sum (centred X) = v3zero.
Proof.
  destruct X as [|x X']; [reflexivity|]. set (X := x :: X'). assert (HN : INR (length X) <> 0) by (apply not_0_INR; discriminate).
  rewrite v3sum_lsum. unfold centred. rewrite !lsum_map. cbn [v3sub vx vy vz].
  assert (G : forall f : V3 -> R, forall c, lsum X f = INR (length X) * c -> lsum X (fun a => f a - c) = 0).
  { intros f c E. rewrite (lsum_ext X (fun a => f a - c) (fun a => f a + (-1) * c)) by (intros; ring).
    rewrite lsum_plus, lsum_const, E. ring. }
  unfold v3zero. apply v3_eq; apply G; unfold mean; rewrite v3sum_lsum; cbn [v3scal vx vy vz]; field; auto.
Qed.
Lemma v3dot_sum u X : v3dot u (v3sum X) = lsum X (fun x => v3dot u x).
Proof.
  induction X as [|x X IH]; [rewrite lsum_nil; unfold v3sum; cbn; destruct u; lin|].
  rewrite lsum_cons, <- IH. cbn [v3sum fold_right]. fold (v3sum X). generalize (v3sum X). lin.
Qed.
Lemma xs_q l : xs (qpairs l) = centred (xs l).
Proof. unfold qpairs, centred, xs. rewrite !map_map. reflexivity. Qed.
Lemma ys_q l : ys (qpairs l) = centred (ys l).
Proof. unfold qpairs, centred, ys. rewrite !map_map. reflexivity. Qed.

(** the squared error splits: rotation part and translation part *)
Definition shift (T : M4) (l : pairs) : V3 := v3sub (mean (ys l)) (move T (mean (xs l))).
Lemma trace_gram A q : m3trace (m3mul A (m3sum (map (fun p => m3outer (fst p) (snd p)) q)))
  = lsum q (fun p => v3dot (m3app A (fst p)) (snd p)).
Proof.
  induction q as [|[x y] q IH]; [rewrite lsum_nil; destruct A; cbn [map]; unfold m3sum; cbn [fold_right]; lin|].
  rewrite lsum_cons, <- IH. cbn [map]. unfold m3sum; cbn [fold_right]. fold (m3sum (map (fun p => m3outer (fst p) (snd p)) q)).
  cbn [fst snd]. generalize (m3sum (map (fun p => m3outer (fst p) (snd p)) q)). lin.
Qed.
Lemma orth_sqn A v : orthogonal A -> v3sqn (m3app A v) = v3sqn v.
Proof. intros O. unfold v3sqn. rewrite v3dot_app, <- m3app_mul. unfold orthogonal in O. rewrite O, m3app_id. reflexivity. Qed.
Definition spread (l : pairs) : R := lsum (qpairs l) (fun p => v3sqn (fst p) + v3sqn (snd p)).
Lemma error_split T l : orthogonal (mR T) ->
  sq_error T (xs l) (ys l) = spread l - 2 * m3trace (m3mul (mR T) (gram (centred (xs l)) (centred (ys l))))
    + INR (length l) * v3sqn (shift T l).
Proof.
  intros O. rewrite sq_error_pairs, gram_pairs, trace_gram.
  set (b := shift T l).
  assert (E : forall p, v3sqn (v3sub (snd p) (move T (fst p))) =
     (let q := (v3sub (fst p) (mean (xs l)), v3sub (snd p) (mean (ys l))) in
      v3sqn (fst q) + v3sqn (snd q) + (-2) * v3dot (m3app (mR T) (fst q)) (snd q)
      + (2 * (v3dot b (snd q)) + (-2) * v3dot (m3app (m3tr (mR T)) b) (fst q)) + v3sqn b)).
  { intros [x y]. cbn [fst snd]. rewrite <- (orth_sqn (mR T) (v3sub x (mean (xs l))) O). subst b. unfold shift, move.
    generalize (mean (xs l)), (mean (ys l)), (mR T), (mt T). clear. lin. }
  rewrite (lsum_ext _ _ _ (fun p _ => E p)). cbv zeta.
  unfold spread. unfold qpairs at 1 2. rewrite !lsum_map.
  rewrite !lsum_plus, !lsum_scal, lsum_const.
  assert (Z1 : lsum l (fun p => v3dot b (v3sub (snd p) (mean (ys l)))) = 0).
  { transitivity (v3dot b (v3sum (ys (qpairs l)))).
    - rewrite v3dot_sum. unfold ys at 2, qpairs. rewrite !lsum_map. reflexivity.
    - rewrite ys_q, mean_centred. clear. lin. }
  assert (Z2 : lsum l (fun p => v3dot (m3app (m3tr (mR T)) b) (v3sub (fst p) (mean (xs l)))) = 0).
  { transitivity (v3dot (m3app (m3tr (mR T)) b) (v3sum (xs (qpairs l)))).
    - rewrite v3dot_sum. unfold xs at 2, qpairs. rewrite !lsum_map. reflexivity.
    - rewrite xs_q, mean_centred. generalize (m3app (m3tr (mR T)) b). clear. lin. }
  cbn [fst snd]. rewrite Z1, Z2. ring.
Qed.

(** ** orthogonal matrices *)
Lemma orth_tr A : orthogonal A -> orthogonal (m3tr A).
Proof. unfold orthogonal. intros H. rewrite m3tr_tr. apply m3_linv_rinv, H. Qed.
Lemma orth_mul A B : orthogonal A -> orthogonal B -> orthogonal (m3mul A B).
Proof.
  unfold orthogonal. intros HA HB. rewrite m3tr_mul, m3mul_assoc, <- (m3mul_assoc (m3tr A)), HA, m3mul_id_l. exact HB.
Qed.
Lemma orth_det A : orthogonal A -> m3det A = 1 \/ m3det A = -1.
Proof.
  intros H. assert (E : m3det A * m3det A = 1) by (rewrite <- (m3det_tr A) at 1; rewrite <- m3det_mul, H; apply m3det_id).
  destruct (Rle_dec 0 (m3det A)); [left | right]; nra.
Qed.
Lemma orth_cols Z : orthogonal Z ->
  a00 Z * a00 Z + a10 Z * a10 Z + a20 Z * a20 Z = 1 /\
  a01 Z * a01 Z + a11 Z * a11 Z + a21 Z * a21 Z = 1 /\
  a02 Z * a02 Z + a12 Z * a12 Z + a22 Z * a22 Z = 1 /\
  a00 Z * a01 Z + a10 Z * a11 Z + a20 Z * a21 Z = 0 /\
  a00 Z * a02 Z + a10 Z * a12 Z + a20 Z * a22 Z = 0 /\
  a01 Z * a02 Z + a11 Z * a12 Z + a21 Z * a22 Z = 0.
Proof.
  unfold orthogonal. destruct Z as [a b c d e f g h i]. intros H. unfold m3mul, m3tr, m3id in H. cbn in H. cbn.
  injection H as E1 E2 E3 E4 E5 E6 E7 E8 E9. lra.
Qed.
Lemma orth_diag_le Z : orthogonal Z -> a00 Z <= 1 /\ a11 Z <= 1 /\ a22 Z <= 1.
Proof. intros H. apply orth_cols in H. destruct H as (A & B & C & _). repeat split; nra. Qed.
Lemma reflection_trace Z : orthogonal Z -> m3det Z = -1 -> m3trace Z <= 1.
Proof.
  intros O D. assert (rotation (m3opp Z)) as HR.
  { split; [|destruct Z; unfold m3det in *; lin_unfold; lin_unfold_in D; lra].
    unfold orthogonal in *. rewrite <- O. clear. lin. }
  apply rotation_trace_bound in HR. destruct HR as [HR _]. destruct Z; unfold m3trace in *; cbn in *. lra.
Qed.
(** diag(1, 1, s) is the only orthogonal matrix of determinant s with unit
    first two diagonal entries *)
Lemma orth_unit_diag Z : orthogonal Z -> a00 Z = 1 -> a11 Z = 1 -> Z = diag3 (mkV3 1 1 (m3det Z)).
Proof.
  intros O A B. pose proof (orth_cols Z O) as (C1 & C2 & C3 & C4 & C5 & C6).
  pose proof (orth_cols _ (orth_tr Z O)) as (R1 & R2 & R3 & _).
  destruct Z as [a b c d e f g h i]. cbn in *. subst a e.
  assert (d = 0) by nra. assert (g = 0) by nra. assert (b = 0) by nra. assert (h = 0) by nra.
  assert (c = 0) by nra. assert (f = 0) by nra. subst. unfold diag3, m3det; cbn. apply m3_eq; try ring.
Qed.

(** ** the rotation of the code *)
Definition sgn_det (s : svd) : R := m3det (svd_V s) * m3det (svd_U s).
Lemma arun_rotation_form s : orthogonal (svd_U s) -> orthogonal (svd_V s) ->
  arun_rotation s = m3mul (m3mul (svd_V s) (diag3 (mkV3 1 1 (sgn_det s)))) (m3tr (svd_U s)) /\
  (sgn_det s = 1 \/ sgn_det s = -1).
Proof.
  intros OU OV. assert (D : sgn_det s = 1 \/ sgn_det s = -1)
    by (unfold sgn_det; destruct (orth_det _ OU) as [-> | ->], (orth_det _ OV) as [-> | ->]; [left|right|right|left]; ring).
  split; auto. unfold arun_rotation. rewrite m3det_mul, m3det_tr. fold (sgn_det s). unfold Rltb.
  destruct (Rlt_dec (sgn_det s) 0); destruct D as [D | D]; try lra.
  - replace (sgn_det s) with (-1) by lra. generalize (svd_U s), (svd_V s). unfold flip_last, diag3. clear. lin.
  - replace (sgn_det s) with 1 by lra. generalize (svd_U s), (svd_V s). unfold diag3. clear. lin.
Qed.
Lemma arun_rotation_ok s : orthogonal (svd_U s) -> orthogonal (svd_V s) -> rotation (arun_rotation s).
Proof.
  intros OU OV. destruct (arun_rotation_form s OU OV) as [E D]. rewrite E. split.
  - apply orth_mul; [apply orth_mul; auto | apply orth_tr; auto].
    unfold orthogonal, diag3. destruct D as [-> | ->]; lin.
  - rewrite !m3det_mul, m3det_tr. replace (m3det (diag3 (mkV3 1 1 (sgn_det s)))) with (sgn_det s) by (unfold diag3; lin).
    transitivity (sgn_det s * sgn_det s); [unfold sgn_det; ring | destruct D as [-> | ->]; ring].
Qed.

(** coordinates in the singular bases *)
Definition zmat (s : svd) (A : M3) : M3 := m3mul (m3mul (m3tr (svd_V s)) A) (svd_U s).
Lemma trace_svd H s A : svd_of H s -> m3trace (m3mul A H) =
  vx (svd_D s) * a00 (zmat s A) + vy (svd_D s) * a11 (zmat s A) + vz (svd_D s) * a22 (zmat s A).
Proof.
  intros (_ & _ & E & _). rewrite E. unfold zmat, diag3. generalize (svd_U s), (svd_V s), (svd_D s). clear. lin.
Qed.
Lemma zmat_orth s A : orthogonal (svd_U s) -> orthogonal (svd_V s) -> orthogonal A -> orthogonal (zmat s A).
Proof. intros. unfold zmat. apply orth_mul; auto. apply orth_mul; auto. apply orth_tr; auto. Qed.
Lemma zmat_det s A : m3det A = 1 -> m3det (zmat s A) = sgn_det s.
Proof. intros. unfold zmat, sgn_det. rewrite !m3det_mul, m3det_tr, H. ring. Qed.
Lemma zmat_back s A : orthogonal (svd_U s) -> orthogonal (svd_V s) ->
  m3mul (m3mul (svd_V s) (zmat s A)) (m3tr (svd_U s)) = A.
Proof.
  intros OU OV. apply orth_tr in OU, OV. unfold orthogonal in OU, OV. rewrite m3tr_tr in OU, OV. unfold zmat.
  rewrite <- !m3mul_assoc, OV, m3mul_id_l, m3mul_assoc, OU, m3mul_id_r. reflexivity.
Qed.
Lemma zmat_arun s : orthogonal (svd_U s) -> orthogonal (svd_V s) ->
  zmat s (arun_rotation s) = diag3 (mkV3 1 1 (sgn_det s)).
Proof.
  intros OU OV. destruct (arun_rotation_form s OU OV) as [E _]. unfold zmat. rewrite E. unfold orthogonal in *.
  rewrite <- !m3mul_assoc, OV, m3mul_id_l, m3mul_assoc, OU, m3mul_id_r. reflexivity.
Qed.
(** among rotations the one of the code maximises the trace *)
Lemma trace_max H s A : svd_of H s -> rotation A ->
  m3trace (m3mul A H) <= m3trace (m3mul (arun_rotation s) H).
Proof.
  intros S [OA DA]. rewrite !(trace_svd H s) by auto. destruct S as (OU & OV & _ & D1 & D2 & D3).
  rewrite zmat_arun by auto. unfold diag3; cbn [a00 a11 a22 vx vy vz].
  pose proof (zmat_orth s A OU OV OA) as OZ. pose proof (zmat_det s A DA) as DZ.
  destruct (arun_rotation_form s OU OV) as [_ D].
  pose proof (orth_diag_le _ OZ) as (L0 & L1 & L2).
  destruct D as [D | D]; rewrite D in *.
  - assert (0 <= vx (svd_D s)) by lra. assert (0 <= vy (svd_D s)) by lra. nra.
  - pose proof (reflection_trace _ OZ DZ) as L. unfold m3trace in L.
    revert L L0 L1 L2 D1 D2 D3. generalize (a00 (zmat s A)), (a11 (zmat s A)), (a22 (zmat s A)), (vx (svd_D s)), (vy (svd_D s)), (vz (svd_D s)).
    clear. intros z0 z1 z2 p q r L L0 L1 L2 D1 D2 D3.
    assert (0 <= (p - q) * (1 - z0)) by (apply Rmult_le_pos; lra). assert (0 <= (q - r) * (2 - z0 - z1)) by (apply Rmult_le_pos; lra).
    assert (0 <= r * (1 - z0 - z1 - z2)) by (apply Rmult_le_pos; lra). nra.
Qed.
Lemma trace_unique H s A : svd_of H s -> vx (svd_D s) > vy (svd_D s) -> vy (svd_D s) > vz (svd_D s) -> rotation A ->
  m3trace (m3mul A H) = m3trace (m3mul (arun_rotation s) H) -> A = arun_rotation s.
Proof.
  intros S G1 G2 [OA DA]. rewrite !(trace_svd H s) by auto. destruct S as (OU & OV & _ & D1 & D2 & D3).
  rewrite zmat_arun by auto. unfold diag3; cbn [a00 a11 a22 vx vy vz].
  pose proof (zmat_orth s A OU OV OA) as OZ. pose proof (zmat_det s A DA) as DZ.
  destruct (arun_rotation_form s OU OV) as [F D].
  pose proof (orth_diag_le _ OZ) as (L0 & L1 & L2). intros E.
  assert (a00 (zmat s A) = 1 /\ a11 (zmat s A) = 1) as [Z0 Z1].
  { assert (L : a00 (zmat s A) + a11 (zmat s A) + a22 (zmat s A) <= 2 + sgn_det s).
    { destruct D as [D | D]; rewrite D in *; [lra|]. pose proof (reflection_trace _ OZ DZ) as L. unfold m3trace in L. lra. }
    revert E L L0 L1 L2 D1 D2 D3 G1 G2.
    generalize (a00 (zmat s A)), (a11 (zmat s A)), (a22 (zmat s A)), (vx (svd_D s)), (vy (svd_D s)), (vz (svd_D s)), (sgn_det s).
    clear. intros z0 z1 z2 p q r d E L L0 L1 L2 D1 D2 D3 G1 G2.
    assert (0 <= (p - q) * (1 - z0)) by (apply Rmult_le_pos; lra). assert (0 <= (q - r) * (2 - z0 - z1)) by (apply Rmult_le_pos; lra).
    assert (0 <= r * (2 + d - z0 - z1 - z2)) by (apply Rmult_le_pos; lra).
    assert ((p - q) * (1 - z0) = 0) by nra. assert ((q - r) * (2 - z0 - z1) = 0) by nra.
    assert (1 - z0 = 0) by (apply (Rmult_eq_reg_l (p - q)); lra). assert (2 - z0 - z1 = 0) by (apply (Rmult_eq_reg_l (q - r)); lra). lra. }
  pose proof (orth_unit_diag _ OZ Z0 Z1) as EZ. rewrite DZ in EZ.
  rewrite <- (zmat_back s A OU OV), EZ, F. reflexivity.
Qed.

(** ** acceptance *)
Lemma arun_reject_false D : vx D >= vy D -> vy D >= vz D -> arun_reject D = false ->
  vx D > vy D /\ vy D > vz D.
Proof.
  unfold arun_reject, too_close. intros H1 H2. destruct (Rltb (Rabs (vy D - vx D)) (1 / 1000000)) eqn:E1; [discriminate|].
  intros E2. apply Rltb_false in E1. apply Rltb_false in E2.
  rewrite Rabs_left1 in E1 by lra. rewrite Rabs_left1 in E2 by lra. lra.
Qed.
Lemma xs_length l : length (xs l) = length l. Proof. apply map_length. Qed.
Lemma ys_length l : length (ys l) = length l. Proof. apply map_length. Qed.

Lemma arun_inv f X Y T r T' : arun f X Y T = Some (r, T') ->
  length Y = length X /\
  (let s := f (gram (centred X) (centred Y)) in
   (arun_reject (svd_D s) = true /\ r = 0%nat /\ T' = T) \/
   (arun_reject (svd_D s) = false /\ r = 1%nat /\
    T' = mkM4 (arun_rotation s) (v3sub (mean Y) (m3app (arun_rotation s) (mean X))) v3zero 1)).
Proof.
  unfold arun. destruct (Nat.eqb (length Y) (length X)) eqn:E; cbn [negb]; [|discriminate].
  apply Nat.eqb_eq in E. intros H. split; auto. cbv zeta in *.
  destruct (arun_reject _) eqn:A; injection H as <- <-; auto.
Qed.
Lemma pos_len (l : pairs) : 0 <= INR (length l). Proof. apply pos_INR. Qed.

Lemma arun_optimal f X Y T T' : exact_svd f X Y -> arun f X Y T = Some (1%nat, T') -> determined X Y T'.
Proof.
  intros S H. apply arun_inv in H. destruct H as (HL & [(_ & C & _) | (A & _ & ->)]); [discriminate|].
  destruct (split_pairs X Y HL) as (l & <- & <-).
  set (H := gram (centred (xs l)) (centred (ys l))) in *. pose proof S as SH. unfold exact_svd in SH. fold H in SH. set (s := f H) in *. clearbody s.
  pose proof SH as (OU & OV & _ & D1 & D2 & D3). apply arun_reject_false in A; auto. destruct A as [G1 G2].
  set (T1 := mkM4 _ _ _ _).
  assert (RT : rigid T1) by (split; [apply arun_rotation_ok; auto | split; reflexivity]).
  assert (S0 : v3sqn (shift T1 l) = 0).
  { unfold shift, T1, move; cbn [mR mt]. generalize (arun_rotation s), (mean (xs l)), (mean (ys l)). clear. lin. }
  assert (ST : forall T2, rigid T2 -> sq_error T2 (xs l) (ys l) - sq_error T1 (xs l) (ys l) =
     2 * (m3trace (m3mul (arun_rotation s) H) - m3trace (m3mul (mR T2) H)) + INR (length l) * v3sqn (shift T2 l)).
  { intros T2 R2. rewrite !error_split by (apply R2 || apply RT). rewrite S0. cbn [mR T1]. fold H. ring. }
  assert (HN : length l <> 0%nat).
  { intros Hz. destruct l; [|discriminate].
    assert (H = m3zero) as E by reflexivity.
    assert (m3frob2 H = 0) as F by (rewrite E; clear; lin).
    destruct SH as (_ & _ & ES & _).
    assert (m3frob2 H = m3frob2 (diag3 (svd_D s))) as F2.
    { clear - ES OU OV. rewrite ES.
      assert (G : forall A, m3frob2 A = m3trace (m3mul (m3tr A) A)) by (intros; lin).
      assert (L : forall O A, orthogonal O -> m3frob2 (m3mul O A) = m3frob2 A).
      { intros O A HO. rewrite !G, m3tr_mul, m3mul_assoc, <- (m3mul_assoc (m3tr O)), HO, m3mul_id_l. reflexivity. }
      assert (Tr : forall A, m3frob2 (m3tr A) = m3frob2 A) by (intros; lin).
      rewrite <- Tr, m3tr_mul, m3tr_tr, L by auto. rewrite m3tr_mul.
      rewrite <- Tr, m3tr_mul, !m3tr_tr, L by auto. reflexivity. }
    rewrite F in F2. destruct (svd_D s) as [p q r]. unfold diag3, m3frob2 in F2. cbn in F2, D1, D2, D3, G1, G2. nra. }
  assert (HP : 0 < INR (length l)) by (apply lt_0_INR; lia).
  split.
  - split; auto. intros T2 R2. specialize (ST T2 R2).
    pose proof (trace_max H s (mR T2) SH (proj1 R2)). pose proof (v3sqn_nonneg (shift T2 l)). nra.
  - intros T2 [R2 B2]. specialize (B2 T1 RT). specialize (ST T2 R2).
    pose proof (trace_max H s (mR T2) SH (proj1 R2)) as TM. pose proof (v3sqn_nonneg (shift T2 l)) as SN.
    assert (m3trace (m3mul (mR T2) H) = m3trace (m3mul (arun_rotation s) H)) as E1 by nra.
    assert (v3sqn (shift T2 l) = 0) as E2 by nra.
    apply trace_unique in E1; auto; [|apply R2]. apply v3sqn_zero in E2. unfold shift, move in E2. rewrite E1 in E2.
    rewrite (rigid_form T2 R2), E1. unfold T1, se3_of_Rt. f_equal.
    revert E2. generalize (mt T2), (mean (ys l)), (m3app (arun_rotation s) (mean (xs l))). clear. intros [a b c] [d e g] [h i j] E.
    unfold v3sub, v3add, v3zero in *. cbn in *. injection E as E1 E2 E3. apply v3_eq; lra.
Qed.
Lemma arun_unchanged f X Y T T' : arun f X Y T = Some (0%nat, T') -> T' = T.
Proof. intros H. apply arun_inv in H. destruct H as (_ & [(_ & _ & E) | (_ & C & _)]); [auto | discriminate]. Qed.

(** ** singular values are determined by the matrix *)
Definition m3char (x : R) (A : M3) : R := m3det (m3sub (m3scal x m3id) A).
Lemma char_svd H s x : svd_of H s -> m3char x (m3mul (m3tr H) H) =
  (x - vx (svd_D s) * vx (svd_D s)) * (x - vy (svd_D s) * vy (svd_D s)) * (x - vz (svd_D s) * vz (svd_D s)).
Proof.
  intros (OU & OV & E & _). set (D := diag3 (svd_D s)) in *. set (U := svd_U s) in *. set (V := svd_V s) in *.
  assert (EH : m3mul (m3tr H) H = m3mul (m3mul V (m3mul D D)) (m3tr V)).
  { rewrite E, !m3tr_mul, m3tr_tr. replace (m3tr D) with D by (unfold D, diag3; destruct (svd_D s); lin).
    unfold orthogonal in OU. rewrite !m3mul_assoc. rewrite <- (m3mul_assoc (m3tr U) U), OU, m3mul_id_l. reflexivity. }
  assert (ES : m3sub (m3scal x m3id) (m3mul (m3tr H) H) = m3mul (m3mul V (m3sub (m3scal x m3id) (m3mul D D))) (m3tr V)).
  { rewrite EH. pose proof (orth_tr V OV) as OT. unfold orthogonal in OT. rewrite m3tr_tr in OT.
    transitivity (m3sub (m3scal x (m3mul V (m3tr V))) (m3mul (m3mul V (m3mul D D)) (m3tr V))); [rewrite OT; reflexivity|].
    clearbody V. generalize (m3mul D D). clear. lin. }
  unfold m3char. rewrite ES, !m3det_mul, m3det_tr.
  assert (DV : m3det V * m3det V = 1) by (destruct (orth_det V OV) as [-> | ->]; ring).
  transitivity (m3det V * m3det V * m3det (m3sub (m3scal x m3id) (m3mul D D))); [ring|]. rewrite DV.
  unfold D, diag3. destruct (svd_D s). lin.
Qed.
Lemma sorted_roots a b c a' b' c' : a >= b -> b >= c -> a' >= b' -> b' >= c' ->
  (forall x, (x - a) * (x - b) * (x - c) = (x - a') * (x - b') * (x - c')) -> a = a' /\ b = b' /\ c = c'.
Proof.
  intros H1 H2 H3 H4 E.
  assert (L : forall a b c a' b' c', a >= b -> b >= c -> a' >= b' -> b' >= c' ->
     (forall x, (x - a) * (x - b) * (x - c) = (x - a') * (x - b') * (x - c')) -> a' <= a).
  { clear. intros a b c a' b' c' H1 H2 H3 H4 E. specialize (E a').
    replace ((a' - a') * (a' - b') * (a' - c')) with 0 in E by ring.
    apply Rmult_integral in E. destruct E as [E | E]; [apply Rmult_integral in E; destruct E|]; lra. }
  assert (a = a').
  { apply Rle_antisym; [apply (L a' b' c' a b c); auto | apply (L a b c a' b' c'); auto]. }
  subst a'. assert (S : b + c = b' + c' /\ b * c = b' * c').
  { pose proof (E (a + 1)) as E1. pose proof (E (a + 2)) as E2. assert (b + c = b' + c') by nra. split; [auto | nra]. }
  destruct S as [S P]. assert (Q : (b' - b) * (b' - c) = 0) by nra.
  apply Rmult_integral in Q. destruct Q; lra.
Qed.
Lemma singular_values_unique H s s' : svd_of H s -> svd_of H s' -> svd_D s = svd_D s'.
Proof.
  intros S S'. pose proof (fun x => eq_trans (eq_sym (char_svd H s x S)) (char_svd H s' x S')) as E.
  destruct S as (_ & _ & _ & A1 & A2 & A3), S' as (_ & _ & _ & B1 & B2 & B3).
  apply sorted_roots in E; try (apply Rle_ge; nra). destruct E as (E1 & E2 & E3).
  destruct (svd_D s) as [p q r], (svd_D s') as [p' q' r']. cbn in *.
  assert (SQ : forall u v, u >= 0 -> v >= 0 -> u * u = v * v -> u = v) by (intros u v U1 V1 EE; nra).
  apply v3_eq; apply SQ; lra.
Qed.
Lemma arun_svd_independent f g X Y T : exact_svd f X Y -> exact_svd g X Y -> arun f X Y T = arun g X Y T.
Proof.
  intros Sf Sg. destruct (arun f X Y T) as [[r T1]|] eqn:E1, (arun g X Y T) as [[r' T2]|] eqn:E2; auto.
  - pose proof E1 as F1. pose proof E2 as F2. apply arun_inv in F1, F2. destruct F1 as (_ & F1), F2 as (_ & F2). cbv zeta in F1, F2.
    rewrite (singular_values_unique _ _ _ Sf Sg) in F1.
    destruct F1 as [(A & -> & ->) | (A & -> & F1)], F2 as [(B & -> & ->) | (B & -> & F2)]; try congruence.
    assert (T1 = T2) as ->; auto. clear F1 F2.
    apply arun_optimal in E1; auto. apply arun_optimal in E2; auto. destruct E2 as [E2 _]. symmetry. apply E1. exact E2.
  - apply arun_inv in E1. destruct E1 as (E1 & _). unfold arun in E2. rewrite E1, Nat.eqb_refl in E2. cbn [negb] in E2. cbv zeta in E2.
    destruct (arun_reject _); discriminate.
  - apply arun_inv in E2. destruct E2 as (E2 & _). unfold arun in E1. rewrite E2, Nat.eqb_refl in E1. cbn [negb] in E1. cbv zeta in E1.
    destruct (arun_reject _); discriminate.
Qed.
Lemma arun_total f X Y T : length Y = length X -> exists r T', arun f X Y T = Some (r, T') /\ (r = 0 \/ r = 1)%nat.
Proof.
  intros E. unfold arun. rewrite E, Nat.eqb_refl. cbn [negb]. cbv zeta. destruct (arun_reject _); eauto.
Qed.
(** rejection, for any exact decomposition *)
Lemma arun_rejects f X Y T s : exact_svd f X Y -> length Y = length X -> svd_of (gram (centred X) (centred Y)) s ->
  (vx (svd_D s) - vy (svd_D s) < 1 / 1000000 \/ vy (svd_D s) - vz (svd_D s) < 1 / 1000000) ->
  arun f X Y T = Some (0%nat, T).
Proof.
  intros Sf E S G. unfold arun. rewrite E, Nat.eqb_refl. cbn [negb]. cbv zeta.
  rewrite (singular_values_unique _ _ _ Sf S). unfold arun_reject, too_close.
  destruct S as (_ & _ & _ & A1 & A2 & A3). rewrite !Rabs_left1 by lra.
  destruct G as [G | G].
  - replace (Rltb _ _) with true at 1; auto. symmetry. apply Rltb_true. lra.
  - replace (Rltb (- (vz (svd_D s) - vy (svd_D s))) (1 / 1000000)) with true by (symmetry; apply Rltb_true; lra).
    destruct (Rltb _ _); auto.
Qed.
Lemma arun_accepts f X Y T s : exact_svd f X Y -> length Y = length X -> svd_of (gram (centred X) (centred Y)) s ->
  vx (svd_D s) - vy (svd_D s) >= 1 / 1000000 -> vy (svd_D s) - vz (svd_D s) >= 1 / 1000000 ->
  exists T', arun f X Y T = Some (1%nat, T').
Proof.
  intros Sf E S G1 G2. unfold arun. rewrite E, Nat.eqb_refl. cbn [negb]. cbv zeta.
  rewrite (singular_values_unique _ _ _ Sf S). unfold arun_reject, too_close.
  destruct S as (_ & _ & _ & A1 & A2 & A3). rewrite !Rabs_left1 by lra.
  replace (Rltb (- (vz (svd_D s) - vy (svd_D s))) (1 / 1000000)) with false by (symmetry; apply Rltb_false; lra).
  replace (Rltb (- (vy (svd_D s) - vx (svd_D s))) (1 / 1000000)) with false by (symmetry; apply Rltb_false; lra). eauto.
Qed.
(** invariants of the singular values *)
Lemma frob_svd H s : svd_of H s -> m3frob2 H =
  vx (svd_D s) * vx (svd_D s) + vy (svd_D s) * vy (svd_D s) + vz (svd_D s) * vz (svd_D s).
Proof.
  intros S. pose proof (char_svd H s 0 S) as E0. pose proof (char_svd H s 1 S) as E1. pose proof (char_svd H s (-1) S) as E2.
  assert (G : m3char 1 (m3mul (m3tr H) H) + m3char (-1) (m3mul (m3tr H) H) - 2 * m3char 0 (m3mul (m3tr H) H) = - 2 * m3frob2 H)
    by (unfold m3char; clear; destruct H; lin).
  rewrite E0, E1, E2 in G. nra.
Qed.
Lemma rank1_svd H u v s : svd_of H s -> H = m3outer u v -> vy (svd_D s) = 0 /\ vz (svd_D s) = 0.
Proof.
  intros S E. pose proof (char_svd H s 0 S) as E0. pose proof (char_svd H s 1 S) as E1. pose proof (char_svd H s (-1) S) as E2.
  assert (G0 : m3char 0 (m3mul (m3tr H) H) = 0) by (rewrite E; unfold m3char; clear; lin).
  assert (G1 : m3char 1 (m3mul (m3tr H) H) - m3char (-1) (m3mul (m3tr H) H) = 2) by (rewrite E; unfold m3char; clear; lin).
  rewrite E0 in G0. rewrite E1, E2 in G1. clear E0 E1 E2. destruct S as (_ & _ & _ & A1 & A2 & A3).
  revert G0 G1 A1 A2 A3. generalize (vx (svd_D s)), (vy (svd_D s)), (vz (svd_D s)). clear. intros p q r G0 G1 A1 A2 A3.
  assert (I : p * p * (q * q) + (p * p * (r * r) + q * q * (r * r)) = 0) by nra.
  assert (0 <= p * p * (q * q)) by (apply Rmult_le_pos; nra). assert (0 <= p * p * (r * r)) by (apply Rmult_le_pos; nra).
  assert (0 <= q * q * (r * r)) by (apply Rmult_le_pos; nra).
  assert (Q : p * p * (q * q) = 0) by lra. assert (q = 0) by (apply Rmult_integral in Q; destruct Q as [Q | Q]; apply Rmult_integral in Q; destruct Q; lra).
  split; lra.
Qed.
(** collinear points *)
Lemma mean_line p u X : X <> [] -> (forall x, In x X -> exists s, x = v3add p (v3scal s u)) -> exists s, mean X = v3add p (v3scal s u).
Proof.
  intros NE H. assert (G : exists s, v3sum X = v3add (v3scal (INR (length X)) p) (v3scal s u)).
  { clear NE. induction X as [|x X IH]; [exists 0; cbn; destruct p, u; lin|].
    destruct (IH (fun y Hy => H y (or_intror Hy))) as [s E]. destruct (H x (or_introl eq_refl)) as [s' E'].
    exists (s + s'). cbn [v3sum fold_right]. fold (v3sum X). rewrite E, E'. cbn [length]. rewrite S_INR. generalize (INR (length X)). destruct p, u. clear. lin. }
  destruct G as [s E]. exists (/ INR (length X) * s). unfold mean. rewrite E.
  assert (INR (length X) <> 0) by (destruct X; [congruence | apply not_0_INR; discriminate]).
  destruct p, u. lin_unfold. apply v3_eq; field; auto.
Qed.
Lemma outer_line (f : V3 * V3 -> V3 * V3) u (l : pairs) : (forall p, In p l -> exists s, fst (f p) = v3scal s u) ->
  exists w, m3sum (map (fun p => m3outer (fst p) (snd p)) (map f l)) = m3outer u w.
Proof.
  induction l as [|p l IH]; intros H; [exists v3zero; destruct u; cbn; lin|].
  destruct IH as [w E]; [intros; apply H; cbn; auto|]. destruct (H p (or_introl eq_refl)) as [s Es].
  cbn [map]. unfold m3sum; cbn [fold_right]. fold (m3sum (map (fun p => m3outer (fst p) (snd p)) (map f l))). rewrite E, Es.
  exists (v3add (v3scal s (snd (f p))) w). generalize (snd (f p)). destruct u, w. clear. lin.
Qed.
Lemma collinear_gram l : collinear (xs l) -> exists u w, gram (centred (xs l)) (centred (ys l)) = m3outer u w.
Proof.
  intros (p & u & H). exists u. rewrite gram_pairs. unfold qpairs. destruct l as [|a l'].
  { exists v3zero. cbn. destruct u. lin. }
  set (l := a :: l') in *. destruct (mean_line p u (xs l)) as [m Em]; [discriminate | auto|].
  apply outer_line. intros q Hq. cbn [fst]. destruct (H (fst q)) as [s E]; [apply in_map; auto|].
  exists (s - m). rewrite Em, E. destruct p, u. clear. lin.
Qed.
Lemma gram_tr l : m3tr (gram (centred (xs l)) (centred (ys l))) = gram (centred (ys l)) (centred (xs l)).
Proof.
  unfold gram, centred, xs, ys. rewrite combine_pairs.
  replace (combine (map (fun x => v3sub x (mean (map snd l))) (map snd l)) (map (fun x => v3sub x (mean (map fst l))) (map fst l)))
    with (map (fun p : V3 * V3 => (v3sub (snd p) (mean (map snd l)), v3sub (fst p) (mean (map fst l)))) l).
  2:{ generalize (mean (map snd l)), (mean (map fst l)). intros. induction l; cbn; [auto|]. rewrite IHl. reflexivity. }
  generalize (mean (map snd l)), (mean (map fst l)). intros m n. induction l; [reflexivity|].
  cbn [map fst snd]. unfold m3sum; cbn [fold_right]. change (fold_right m3add m3zero) with m3sum. rewrite <- IHl. 
  generalize (m3sum (map (fun p : V3 * V3 => m3outer (fst p) (snd p)) (map (fun p => (v3sub (fst p) n, v3sub (snd p) m)) l))).
  clear. lin.
Qed.
Lemma swap_pairs (l : pairs) : exists l', xs l' = ys l /\ ys l' = xs l.
Proof. exists (map (fun p => (snd p, fst p)) l). unfold xs, ys. rewrite !map_map. auto. Qed.
Lemma arun_collinear f X Y T : exact_svd f X Y -> length Y = length X -> collinear X \/ collinear Y -> arun f X Y T = Some (0%nat, T).
Proof.
  intros S E C. destruct (split_pairs X Y E) as (l & <- & <-). rewrite ?xs_length, ?ys_length in E.
  apply (arun_rejects f _ _ T (f (gram (centred (xs l)) (centred (ys l))))); auto; [rewrite xs_length, ys_length; auto|].
  right. assert (Z : exists u w, gram (centred (xs l)) (centred (ys l)) = m3outer u w).
  { destruct C as [C | C]; [apply collinear_gram; auto|]. destruct (swap_pairs l) as (l' & E1 & E2). rewrite <- E1 in C.
    destruct (collinear_gram l' C) as (u & w & G). rewrite E1, E2, <- gram_tr in G. exists w, u.
    rewrite <- (m3tr_tr (gram _ _)), G. destruct u, w. clear. lin. }
  destruct Z as (u & w & Z). destruct (rank1_svd _ u w _ S Z) as [-> ->]. lra.
Qed.
Lemma short_collinear X : (length X < 3)%nat -> collinear X.
Proof.
  destruct X as [|a [|b [|c X]]]; cbn; intros; [|  | | lia].
  - exists v3zero, v3zero. intros x [].
  - exists a, v3zero. intros x [<- | []]. exists 0. destruct a; lin.
  - exists a, (v3sub b a). intros x [<- | [<- | []]]; [exists 0 | exists 1]; destruct a, b; lin.
Qed.
Lemma arun_small f X Y T : exact_svd f X Y -> length Y = length X ->
  m3frob2 (gram (centred X) (centred Y)) < 1 / 1000000000000 -> arun f X Y T = Some (0%nat, T).
Proof.
  intros S E B. apply (arun_rejects f X Y T _ S E S). left.
  rewrite (frob_svd _ _ S) in B. destruct S as (_ & _ & _ & A1 & A2 & A3).
  revert B A1 A2 A3. generalize (svd_D (f (gram (centred X) (centred Y)))). intros [p q r]. cbn. clear. intros.
  destruct (Rlt_dec (p - q) (1 / 1000000)); auto. exfalso.
  assert (p >= 1 / 1000000) by lra. assert (p * p >= 1 / 1000000 * (1 / 1000000)) by nra. nra.
Qed.
