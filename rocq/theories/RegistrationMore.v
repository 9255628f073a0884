(** Derivatives of the registration error; witnesses. *)
Require Import Reals List Arith Lia Lra Psatz Bool.
From Verif Require Import Lin LinFacts SO3 SE3 SpecGeom SO3Ln SE3Ops SE3Alg SE3Exp Sums DenseProofs Nodes Robust Graph Solve Session Factors.
From Verif Require Import SpecFactors FactorsDer Factors3D Registration SpecRegistration ArunProofs RegistrationProofs SE3Tangent.
Import ListNotations.
Local Open Scope R_scope.

Lemma move_rate T xi x : affine T ->
  v3_derivative (fun s => move (se3_update_lhs T (v6scal s xi)) x) 0 (v3opp (rate T x xi)).
Proof.
  intros A. pose proof (update_tangent T xi A) as H. rewrite twist_mul in H by auto. destruct H as (HR & HT & _). cbn [mR mt] in HR, HT.
  unfold move. eapply v3_der_eq; [apply v3_der_add; [apply m3_der_app; [exact HR | apply v3_der_const] | exact HT]|].
  unfold rate, move. rewrite m3app_mul, hat3_app.
  generalize (mR (se3_update_lhs T (v6scal 0 xi))), (m3app (mR T) x), (mt T). clear. destruct xi as [w v]. cbn [v6w v6v].
  intros [? ? ? ? ? ? ? ? ?] [? ? ?] [? ? ?]. destruct w, v. lin.
Qed.
Lemma update_zero T xi : se3_update_lhs T (v6scal 0 xi) = T.
Proof. unfold se3_update_lhs. replace (v6scal 0 xi) with v6zero by (destruct xi; lin). rewrite se3_of_zero. apply m4mul_id_l. Qed.
Lemma quad_rate L f d : v3_derivative f 0 d -> derivable_pt_lim (fun s => quad3 L (f s) (f s)) 0 (quad3 L d (f 0) + quad3 L (f 0) d).
Proof. intros (H1 & H2 & H3). unfold quad3. lc. eapply dl_eq; [der | cbv beta; ring]. Qed.
Lemma dl_lsum {A} (l : list A) (f : A -> R -> R) (d : A -> R) : (forall a, In a l -> derivable_pt_lim (f a) 0 (d a)) ->
  derivable_pt_lim (fun s => lsum l (fun a => f a s)) 0 (lsum l d).
Proof.
  induction l as [|a l IH]; intros H; [rewrite lsum_nil; eapply dl_ext; [intros; apply lsum_nil | apply dl_const]|].
  rewrite lsum_cons. eapply dl_ext; [intros; apply lsum_cons|]. apply dl_plus; [apply H; cbn; auto | apply IH; intros; apply H; cbn; auto].
Qed.
Definition slope (l : list (V3 * V3 * M3)) (T : M4) (xi : V6) : R :=
  2 * lsum l (fun c => let '(x, y, L) := c in v3dot (m3appT (v3sub y (move T x)) L) (rate T x xi)).
Lemma error_rate l T xi : affine T -> Forall (fun c => sym3 (snd c)) l ->
  derivable_pt_lim (fun s => weighted_error l (se3_update_lhs T (v6scal s xi))) 0 (slope l T xi).
Proof.
  intros A F. unfold weighted_error, slope. rewrite <- lsum_scal.
  apply (dl_lsum l (fun c s => let '(x, y, L) := c in quad3 L (v3sub y (move (se3_update_lhs T (v6scal s xi)) x)) (v3sub y (move (se3_update_lhs T (v6scal s xi)) x)))).
  intros [[x y] L] Hin. rewrite Forall_forall in F. specialize (F _ Hin). cbn [snd] in F.
  assert (D : v3_derivative (fun s => v3sub y (move (se3_update_lhs T (v6scal s xi)) x)) 0 (rate T x xi)).
  { eapply v3_der_eq; [apply v3_der_sub; [apply v3_der_const | apply move_rate; auto]|]. generalize (rate T x xi). clear. lin. }
  eapply dl_eq; [apply (quad_rate L _ _ D)|]. rewrite update_zero, (quad3_sym L _ _ F).
  unfold quad3. generalize (v3sub y (move T x)), (rate T x xi). clear. lin.
Qed.
Lemma rate_scal T x s xi : rate T x (v6scal s xi) = v3scal s (rate T x xi).
Proof. unfold rate. generalize (move T x). destruct xi as [w v]. clear. cbn [v6scal v6w v6v]. lin. Qed.
Definition curvature (l : list (V3 * V3 * M3)) (T : M4) (xi : V6) : R :=
  lsum l (fun c => let '(x, y, L) := c in v3dot (rate T x xi) (m3app L (rate T x xi))).
Lemma linear_along l T s xi : Forall (fun c => sym3 (snd c)) l ->
  linear_error l T (v6scal s xi) = weighted_error l T + s * slope l T xi + s * s * curvature l T xi.
Proof.
  intros F. rewrite linear_error_expand by auto. unfold slope, curvature.
  assert (E1 : lsum l (fun c => let '(x, y, L) := c in v3dot (m3appT (v3sub y (move T x)) L) (rate T x (v6scal s xi))) =
               s * lsum l (fun c => let '(x, y, L) := c in v3dot (m3appT (v3sub y (move T x)) L) (rate T x xi))).
  { rewrite <- lsum_scal. apply lsum_ext. intros [[x y] L] _. rewrite rate_scal. generalize (m3appT (v3sub y (move T x)) L), (rate T x xi). clear. lin. }
  assert (E2 : lsum l (fun c => let '(x, y, L) := c in v3dot (rate T x (v6scal s xi)) (m3app L (rate T x (v6scal s xi)))) =
               s * s * lsum l (fun c => let '(x, y, L) := c in v3dot (rate T x xi) (m3app L (rate T x xi)))).
  { rewrite <- lsum_scal. apply lsum_ext. intros [[x y] L] _. rewrite rate_scal. generalize (rate T x xi). clear. lin. }
  rewrite E1, E2. ring.
Qed.
Lemma linear_rate l T xi : Forall (fun c => sym3 (snd c)) l ->
  derivable_pt_lim (fun s => linear_error l T (v6scal s xi)) 0 (slope l T xi).
Proof.
  intros F. eapply dl_ext; [intros; apply linear_along; auto|]. eapply dl_eq; [der | cbv beta; ring].
Qed.
Lemma curvature_pos l T xi : Forall (fun c => sym3 (snd c) /\ psd3 (snd c)) l -> 0 <= curvature l T xi.
Proof.
  intros F. unfold curvature. rewrite <- (lsum_0 l). apply lsum_le. intros [[x y] L] Hin. rewrite Forall_forall in F.
  apply (proj2 (F _ Hin)).
Qed.
Lemma v6scal_1 xi : v6scal 1 xi = xi. Proof. destruct xi; lin. Qed.
Lemma forall_sym l : Forall (fun c : V3 * V3 * M3 => sym3 (snd c) /\ psd3 (snd c)) l -> Forall (fun c => sym3 (snd c)) l.
Proof. intros F. eapply Forall_impl; [|exact F]. intros c Hc. apply Hc. Qed.
Lemma step_descends l T d : Forall (fun c => sym3 (snd c) /\ psd3 (snd c)) l -> gn_step l T d -> slope l T d <= 0.
Proof.
  intros F G. pose proof (forall_sym l F) as FS. specialize (G (v6scal 0 d)). rewrite <- (v6scal_1 d) in G at 1. rewrite !linear_along in G by auto.
  pose proof (curvature_pos l T d F). lra.
Qed.
Lemma step_zero_slope l T : Forall (fun c => sym3 (snd c) /\ psd3 (snd c)) l -> gn_step l T v6zero -> forall xi, slope l T xi = 0.
Proof.
  intros F G xi. pose proof (forall_sym l F) as FS. pose proof (curvature_pos l T xi F) as P.
  assert (Q : forall s, 0 <= s * slope l T xi + s * s * curvature l T xi).
  { intros s. specialize (G (v6scal s xi)). replace v6zero with (v6scal 0 xi) in G by (destruct xi; lin). rewrite !linear_along in G by auto. lra. }
  set (a := slope l T xi) in *. set (c := curvature l T xi) in *.
  pose proof (Q (- a / (1 + c))) as Q1.
  assert (E : - a / (1 + c) * a + - a / (1 + c) * (- a / (1 + c)) * c = - (a * a) / ((1 + c) * (1 + c))) by (field; lra).
  rewrite E in Q1. assert (0 < (1 + c) * (1 + c)) by nra.
  assert (- (a * a) >= 0). { apply Rle_ge. apply (Rmult_le_compat_r ((1 + c) * (1 + c))) in Q1; [|lra]. replace (- (a * a) / ((1 + c) * (1 + c)) * ((1 + c) * (1 + c))) with (- (a * a)) in Q1 by (field; lra). lra. }
  nra.
Qed.
(** information matrices *)
Lemma weighted_at_ok X Y ws : Forall (fun w => 0 <= w) ws -> Forall (fun c => sym3 (snd c) /\ psd3 (snd c)) (weighted_at X Y ws).
Proof.
  intros F. apply Forall_forall. intros c Hc. unfold weighted_at in Hc. apply in_map_iff in Hc. destruct Hc as ([[x y] w] & <- & Hin).
  apply in_combine_r in Hin. rewrite Forall_forall in F. specialize (F _ Hin). cbn [fst snd] in *. split; [unfold sym3; lin|].
  intros v. unfold quad3. replace (v3dot v (m3app (m3scal w m3id) v)) with (w * v3sqn v) by (destruct v; lin).
  apply Rmult_le_pos; auto. apply v3sqn_nonneg.
Qed.
Definition covariance3 (A : M3) : Prop := sym3 A /\ psd3 A.
Lemma gicp_at_ok inv3 X Y CX CY T : Forall covariance3 CX -> Forall covariance3 CY ->
  (forall A, In A (map (fun p => m3add (snd (snd p)) (m3mul (m3mul (mR T) (fst (snd p))) (m3tr (mR T)))) (combine (combine X Y) (combine CX CY))) ->
     m3mul A (inv3 A) = m3id) ->
  Forall (fun c => sym3 (snd c) /\ psd3 (snd c)) (gicp_at inv3 X Y CX CY T).
Proof.
  intros FX FY HI. apply Forall_forall. intros c Hc. unfold gicp_at in Hc. apply in_map_iff in Hc. destruct Hc as ([[x y] [cx cy]] & <- & Hin).
  pose proof (in_map (fun p => m3add (snd (snd p)) (m3mul (m3mul (mR T) (fst (snd p))) (m3tr (mR T)))) _ _ Hin) as Hm. apply HI in Hm.
  cbn [fst snd] in *. apply in_combine_r in Hin. pose proof (in_combine_l _ _ _ _ Hin) as Hx. pose proof (in_combine_r _ _ _ _ Hin) as Hy.
  rewrite Forall_forall in FX, FY. destruct (FX _ Hx) as [SX PX], (FY _ Hy) as [SY PY].
  set (A := m3add cy (m3mul (m3mul (mR T) cx) (m3tr (mR T)))) in *. set (B := inv3 A) in *.
  assert (SA : m3tr A = A).
  { unfold A, sym3 in *. rewrite m3tr_add, !m3tr_mul, m3tr_tr, SX, SY, m3mul_assoc. reflexivity. }
  assert (BA : m3mul B A = m3id) by (apply m3_linv_rinv; exact Hm).
  assert (SB : m3tr B = B).
  { transitivity (m3mul (m3mul B A) (m3tr B)); [rewrite BA, m3mul_id_l; reflexivity|].
    rewrite m3mul_assoc. rewrite <- SA at 1. rewrite <- m3tr_mul, BA, m3tr_id, m3mul_id_r. reflexivity. }
  split; [exact SB|]. intros v. unfold quad3.
  replace (v3dot v (m3app B v)) with (v3dot (m3app B v) (m3app A (m3app B v))).
  2:{ rewrite <- m3app_mul, Hm, m3app_id, v3dot_comm. reflexivity. }
  unfold A. set (u := m3app B v). clearbody u.
  replace (v3dot u (m3app (m3add cy (m3mul (m3mul (mR T) cx) (m3tr (mR T)))) u)) with
    (quad3 cy u u + quad3 cx (m3app (m3tr (mR T)) u) (m3app (m3tr (mR T)) u)) by (unfold quad3; generalize (mR T); clear; lin).
  pose proof (PX (m3app (m3tr (mR T)) u)). pose proof (PY u). lra.
Qed.

(** ** witnesses *)
(** the six points +-a e1, +-b e2, +-c e3 *)
Definition cross6 (a b c : R) : list V3 :=
  [mkV3 a 0 0; mkV3 (- a) 0 0; mkV3 0 b 0; mkV3 0 (- b) 0; mkV3 0 0 c; mkV3 0 0 (- c)].
Lemma cross6_mean a b c : mean (cross6 a b c) = v3zero.
Proof. unfold mean, cross6, v3sum. cbn [fold_right]. generalize (/ INR (length (cross6 a b c))). intros k. lin_unfold. apply v3_eq; ring. Qed.
Lemma centred_zero X : mean X = v3zero -> centred X = X.
Proof. intros E. unfold centred. rewrite E. transitivity (map (fun x => x) X); [|apply map_id]. apply map_ext. intros [a b c]. lin. Qed.
Lemma cross6_gram a b c : gram (centred (cross6 a b c)) (centred (cross6 a b c)) = diag3 (mkV3 (2 * (a * a)) (2 * (b * b)) (2 * (c * c))).
Proof.
  rewrite centred_zero by apply cross6_mean. unfold gram, cross6. cbn [combine map fst snd]. unfold m3sum. cbn [fold_right]. unfold diag3.
  lin_unfold. apply m3_eq; ring.
Qed.
Lemma move_id x : move m4id x = x. Proof. unfold move. destruct x. lin. Qed.
Lemma error_id X : sq_error m4id X X = 0.
Proof. induction X as [|x X IH]; cbn; auto. rewrite IH, move_id. destruct x. lin. Qed.
Lemma error_nonneg T X : forall Y, 0 <= sq_error T X Y.
Proof. induction X as [|x X IH]; intros [|y Y]; cbn; try lra. specialize (IH Y). pose proof (v3sqn_nonneg (v3sub y (move T x))). lra. Qed.
Lemma error_zero T X : forall Y, sq_error T X Y = 0 -> length Y = length X -> Y = map (move T) X.
Proof.
  induction X as [|x X IH]; intros [|y Y] E L; cbn in *; try discriminate; auto. injection L as L.
  pose proof (v3sqn_nonneg (v3sub y (move T x))) as P1. pose proof (error_nonneg T X Y) as P2.
  f_equal; [|apply IH; auto; lra]. assert (Z : v3sqn (v3sub y (move T x)) = 0) by lra. apply v3sqn_zero in Z.
  destruct y as [a b c], (move T x) as [a' b' c']. unfold v3sub, v3zero in Z. cbn in Z. injection Z as ? ? ?. apply v3_eq; lra.
Qed.
Lemma error_exact T X : sq_error T X (map (move T) X) = 0.
Proof. induction X as [|x X IH]; cbn; auto. rewrite IH. generalize (move T x). intros [a b c]. lin. Qed.
Lemma determined_exact X T0 : rigid T0 -> (forall T, rigid T -> map (move T) X = map (move T0) X -> T = T0) -> determined X (map (move T0) X) T0.
Proof.
  intros R0 U. split; [split; auto; intros; rewrite error_exact; apply error_nonneg|].
  intros T' [RT B]. specialize (B T0 R0). rewrite error_exact in B. pose proof (error_nonneg T' X (map (move T0) X)) as P.
  apply U; auto. symmetry. apply error_zero; [lra | apply map_length].
Qed.
Lemma cross6_pins a b c T T0 : rigid T -> rigid T0 -> a <> 0 -> b <> 0 -> c <> 0 ->
  map (move T) (cross6 a b c) = map (move T0) (cross6 a b c) -> T = T0.
Proof.
  intros RT R0 A B C H. rewrite (rigid_form T RT), (rigid_form T0 R0). unfold cross6, move in H. cbn [map] in H.
  destruct (mR T) as [m00 m01 m02 m10 m11 m12 m20 m21 m22], (mR T0) as [n00 n01 n02 n10 n11 n12 n20 n21 n22], (mt T) as [t0 t1 t2], (mt T0) as [s0 s1 s2].
  clear RT R0. lin_unfold_in H. injection H as H1 H2 H3 H4 H5 H6 H7 H8 H9 H10 H11 H12 H13 H14 H15 H16 H17 H18. unfold se3_of_Rt.
  assert (M : forall x y k, k <> 0 -> k * x = k * y -> x = y) by (intros x y k K E; apply (Rmult_eq_reg_l k); auto).
  f_equal; [apply m3_eq | apply v3_eq]; try lra.
  all: first [apply (M _ _ a); [auto|]; lra | apply (M _ _ b); [auto|]; lra | apply (M _ _ c); [auto|]; lra].
Qed.
Lemma diag_svd p q r : p >= q -> q >= r -> r >= 0 -> svd_of (diag3 (mkV3 p q r)) (mkSvd m3id (mkV3 p q r) m3id).
Proof.
  intros. unfold svd_of. cbn [svd_U svd_V svd_D vx vy vz]. repeat split; auto; try (unfold orthogonal; lin). unfold diag3. lin.
Qed.
Lemma arun_cube f T : exact_svd f (cross6 1 1 1) (cross6 1 1 1) -> arun f (cross6 1 1 1) (cross6 1 1 1) T = Some (0%nat, T).
Proof.
  intros S. apply (arun_rejects f _ _ T (mkSvd m3id (mkV3 2 2 2) m3id)); auto.
  - rewrite cross6_gram. replace (2 * (1 * 1)) with 2 by ring. apply diag_svd; lra.
  - cbn. lra.
Qed.
(** moving Y by a rigid motion rotates the columns of the matrix H *)
Lemma gram_move T X : gram (centred X) (centred (map (move T) X)) = m3mul (gram (centred X) (centred X)) (m3tr (mR T)).
Proof.
  destruct X as [|x0 X0]; [cbn; generalize (mR T); lin|]. set (X := x0 :: X0).
  assert (E : centred (map (move T) X) = map (m3app (mR T)) (centred X)).
  { unfold centred. rewrite mean_move by discriminate. rewrite !map_map. apply map_ext. intros x. unfold move.
    generalize (mR T), (mt T), (mean X). clear. intros. destruct x. lin. }
  rewrite E. unfold gram. generalize (centred X). intros Q. induction Q as [|q Q IH]; [cbn; generalize (mR T); lin|].
  cbn [map combine fst snd]. unfold m3sum; cbn [fold_right]. change (fold_right m3add m3zero) with m3sum. rewrite IH.
  generalize (m3sum (map (fun p => m3outer (fst p) (snd p)) (combine Q Q))), (mR T). clear. destruct q. lin.
Qed.
(** positive definite matrices are invertible *)
Lemma pd_det A : sym3 A -> (forall v, v <> v3zero -> 0 < quad3 A v v) -> m3det A <> 0.
Proof.
  intros S P D. destruct A as [a b c b' e f c' f' i]. unfold sym3, m3tr in S. cbn in S. injection S as -> -> _ -> _ _.
  assert (K : forall v, quad3 (mkM3 a b c b e f c f i) v v = 0 -> v = v3zero).
  { intros v E. destruct (Req_dec (v3sqn v) 0) as [Z | Z]; [apply v3sqn_zero; auto|]. exfalso.
    assert (v <> v3zero) as NZ by (intros ->; apply Z; lin). specialize (P v NZ). lra. }
  lin_unfold_in D.
  assert (K1 := K (mkV3 (e * i - f * f) (c * f - b * i) (b * f - c * e))).
  assert (K3 := K (mkV3 (b * f - c * e) (b * c - a * f) (a * e - b * b))).
  assert (K4 := K (mkV3 (- b) a 0)). assert (K5 := K (mkV3 1 0 0)). unfold quad3 in *.
  lin_unfold_in K1. lin_unfold_in K3. lin_unfold_in K4. lin_unfold_in K5.
  assert (E3 : mkV3 (b * f - c * e) (b * c - a * f) (a * e - b * b) = mkV3 0 0 0).
  { apply K3. transitivity ((a * e - b * b) * (a * (e * i - f * f) - b * (b * i - f * c) + c * (b * f - e * c))); [ring|]. rewrite D. ring. }
  injection E3 as _ _ E3.
  assert (E4 : mkV3 (- b) a 0 = mkV3 0 0 0). { apply K4. transitivity (a * (a * e - b * b)); [ring|]. rewrite E3. ring. }
  injection E4 as _ E4. assert (E5 : mkV3 1 0 0 = mkV3 0 0 0) by (apply K5; rewrite E4; ring).
  injection E5 as E5. lra.
Qed.
Lemma inv_unique A B C : m3mul B A = m3id -> m3mul A C = m3id -> C = B.
Proof. intros H1 H2. rewrite <- (m3mul_id_l C), <- H1, m3mul_assoc, H2, m3mul_id_r. reflexivity. Qed.
Definition inverts3 (inv3 : M3 -> M3) : Prop := forall A, m3det A <> 0 -> m3mul A (inv3 A) = m3id.
Lemma inv3_value inv3 A B : inverts3 inv3 -> m3mul B A = m3id -> inv3 A = B.
Proof.
  intros I E. apply (inv_unique A); auto. apply I. intros D. assert (m3det (m3mul B A) = 1) by (rewrite E; apply m3det_id).
  rewrite m3det_mul, D in H. lra.
Qed.
(** a fixed point of gicp which is not a minimum of the error it documents *)
Definition gx : list V3 := [v3zero; v3zero; mkV3 (1/10) 0 0; mkV3 0 (1/10) 0; mkV3 0 0 (1/10)].
Definition gy : list V3 := [mkV3 1 0 0; mkV3 (-1) 0 0; mkV3 (1/10) 0 0; mkV3 0 (1/10) 0; mkV3 0 0 (1/10)].
Definition gcov : M3 := mkM3 (9/25) (12/25) 0 (12/25) (16/25) 0 0 0 0.
Definition gcx : list M3 := [gcov; gcov; m3zero; m3zero; m3zero].
Definition gcy : list M3 := [m3id; m3id; m3id; m3id; m3id].
Definition gT : M4 := mkM4 (mkM3 (3/5) (4/5) 0 (-4/5) (3/5) 0 0 0 1) v3zero v3zero 1.
Lemma gcov_ok : covariance3 gcov.
Proof.
  split; [unfold sym3, gcov; lin|]. intros [x y z]. unfold quad3, gcov. lin_unfold.
  match goal with |- 0 <= ?e => replace e with ((3 / 5 * x + 4 / 5 * y) * (3 / 5 * x + 4 / 5 * y)) by field end. apply Rle_0_sqr.
Qed.
Lemma id_pd v : v <> v3zero -> 0 < quad3 m3id v v.
Proof.
  intros NZ. unfold quad3. rewrite m3app_id. fold (v3sqn v). pose proof (v3sqn_nonneg v).
  destruct (Req_dec (v3sqn v) 0) as [Z | Z]; [apply v3sqn_zero in Z; contradiction | lra].
Qed.
Lemma gT_rigid : rigid gT.
Proof. split; [|split; reflexivity]. cbn [gT mR]. split; [unfold orthogonal; lin_unfold; apply m3_eq; field | lin_unfold; field]. Qed.
Lemma gicp_fixed inv3 inv6 junk tol Hi : 0 <= tol ->
  inv6 (snd (reg_system (gicp_corrs inv3 gx gy gcx gcy) m4id)) = Some Hi ->
  gicp inv3 inv6 junk gx gy gcx gcy m4id tol = Some (1%nat, Some m4id).
Proof.
  intros HT EI. unfold gicp. cbn [length gx gy gcx gcy Nat.leb andb]. f_equal. apply (zero_grad_loop _ _ _ _ _ Hi); auto.
  apply v6dot_all. intros w. rewrite reg_system_grad, gicp_corrs_at. unfold gicp_at, gx, gy, gcx, gcy. cbn [combine map fst snd].
  rewrite !lsum_cons, lsum_nil. 
  generalize (inv3 (m3add m3id (m3mul (m3mul (mR m4id) gcov) (m3tr (mR m4id))))), (inv3 (m3add m3id (m3mul (m3mul (mR m4id) m3zero) (m3tr (mR m4id))))).
  unfold rate, move. clear. intros [? ? ? ? ? ? ? ? ?] [? ? ? ? ? ? ? ? ?]. destruct w as [[? ? ?] [? ? ?]]. lin_unfold. ring.
Qed.
Lemma gicp_error_id inv3 : inverts3 inv3 -> weighted_error (gicp_at inv3 gx gy gcx gcy m4id) m4id = 41 / 25.
Proof.
  intros I. unfold gicp_at, gx, gy, gcx, gcy. cbn [combine map fst snd]. unfold weighted_error. rewrite !lsum_cons, lsum_nil.
  rewrite (inv3_value inv3 (m3add m3id (m3mul (m3mul (mR m4id) gcov) (m3tr (mR m4id)))) (mkM3 (41/50) (-12/50) 0 (-12/50) (34/50) 0 0 0 1)); auto.
  2:{ unfold gcov. lin_unfold. apply m3_eq; field. }
  rewrite (inv3_value inv3 (m3add m3id (m3mul (m3mul (mR m4id) m3zero) (m3tr (mR m4id)))) m3id); auto.
  2:{ lin_unfold. apply m3_eq; ring. }
  unfold quad3, move. lin_unfold. field.
Qed.
Lemma gicp_error_turned inv3 : inverts3 inv3 -> weighted_error (gicp_at inv3 gx gy gcx gcy gT) gT = 127 / 125.
Proof.
  intros I. unfold gicp_at, gx, gy, gcx, gcy. cbn [combine map fst snd]. unfold weighted_error. rewrite !lsum_cons, lsum_nil.
  rewrite (inv3_value inv3 (m3add m3id (m3mul (m3mul (mR gT) gcov) (m3tr (mR gT)))) (mkM3 (1/2) 0 0 0 1 0 0 0 1)); auto.
  2:{ unfold gcov, gT. lin_unfold. apply m3_eq; field. }
  rewrite (inv3_value inv3 (m3add m3id (m3mul (m3mul (mR gT) m3zero) (m3tr (mR gT)))) m3id); auto.
  2:{ unfold gT. lin_unfold. apply m3_eq; ring. }
  unfold quad3, move, gT. lin_unfold. field.
Qed.
(** the closed form 3x3 inverse *)
Definition inv3_adj (A : M3) : M3 := m3scal (/ m3det A) (m3adj A).
Lemma inv3_adj_ok : inverts3 inv3_adj.
Proof.
  intros A D. unfold inv3_adj.
  replace (m3mul A (m3scal (/ m3det A) (m3adj A))) with (m3scal (/ m3det A) (m3mul A (m3adj A))) by (generalize (m3adj A), (/ m3det A); clear; lin).
  rewrite m3adj_r. transitivity (m3scal (/ m3det A * m3det A) m3id); [generalize (/ m3det A), (m3det A); clear; lin|].
  rewrite Rinv_l by auto. apply m3scal_1.
Qed.
