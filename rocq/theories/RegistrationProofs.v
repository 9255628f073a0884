(** Plane estimation and the iterative registrations. *)
Require Import Reals List Arith Lia Lra Psatz Bool.
From Verif Require Import Lin LinFacts SO3 SE3 SpecGeom SO3Ln SE3Ops SE3Alg SE3Exp Sums DenseProofs Nodes Robust Graph Solve Session Factors.
From Verif Require Import SpecFactors FactorsDer Factors3D Registration SpecRegistration ArunProofs.
Import ListNotations.
Local Open Scope R_scope.

(** ** plane estimation *)
Lemma gram_quad X n : v3dot n (m3app (gram (centred X) (centred X)) n) = lsum (centred X) (fun q => v3dot n q * v3dot n q).
Proof.
  unfold gram. generalize (centred X). intros Q. induction Q as [|q Q IH]; [rewrite lsum_nil; destruct n; cbn; lin|].
  rewrite lsum_cons, <- IH. cbn [combine map fst snd]. unfold m3sum; cbn [fold_right]. change (fold_right m3add m3zero) with m3sum.
  generalize (m3sum (map (fun p => m3outer (fst p) (snd p)) (combine Q Q))). clear. lin.
Qed.
Lemma plane_error_split X n d : X <> [] ->
  plane_error (mkV4 n d) X = v3dot n (m3app (gram (centred X) (centred X)) n)
    + INR (length X) * ((v3dot n (mean X) + d) * (v3dot n (mean X) + d)).
Proof.
  intros NE. rewrite gram_quad. unfold plane_error. cbn [v4h v4l]. set (b := v3dot n (mean X) + d).
  assert (E : forall x, (v3dot n x + d) * (v3dot n x + d) =
     v3dot n (v3sub x (mean X)) * v3dot n (v3sub x (mean X)) + (2 * b) * v3dot n (v3sub x (mean X)) + b * b).
  { intros x. subst b. generalize (mean X). destruct n. clear. lin. }
  rewrite (lsum_ext _ _ _ (fun x _ => E x)), !lsum_plus, lsum_scal, lsum_const. unfold centred at 1. rewrite lsum_map.
  assert (Z : lsum X (fun x => v3dot n (v3sub x (mean X))) = 0).
  { transitivity (v3dot n (v3sum (centred X))); [rewrite v3dot_sum; unfold centred; rewrite lsum_map; reflexivity|].
    rewrite mean_centred. destruct n. lin. }
  rewrite Z. ring.
Qed.
Lemma eigen_quad C e n : eigen_of C e -> let m := m3app (m3tr (eig_vecs e)) n in
  v3dot n (m3app C n) = vx (eig_vals e) * (vx m * vx m) + vy (eig_vals e) * (vy m * vy m) + vz (eig_vals e) * (vz m * vz m).
Proof.
  intros (_ & E & _). cbv zeta. rewrite E. unfold diag3. generalize (eig_vals e), (eig_vecs e). clear. lin.
Qed.
Lemma eigen_col0 C e : eigen_of C e -> m3app (m3tr (eig_vecs e)) (col0 (eig_vecs e)) = mkV3 1 0 0.
Proof.
  intros (O & _). pose proof (orth_cols _ O) as (A & B & D & E & F & G). unfold col0.
  destruct (eig_vecs e) as [a b c d g f h i j]. cbn in *. lin_unfold. apply v3_eq; lra.
Qed.
Lemma orth_tr_sqn A v : orthogonal A -> v3sqn (m3app (m3tr A) v) = v3sqn v.
Proof. intros O. apply orth_sqn, orth_tr, O. Qed.
Lemma estimate_plane_some f X p : estimate_plane f X = Some p -> X <> [] /\
  let n := col0 (eig_vecs (f (gram (centred X) (centred X)))) in p = mkV4 n (- v3dot (mean X) n).
Proof. unfold estimate_plane. destruct X; [discriminate|]. intros E. injection E as <-. split; [discriminate | reflexivity]. Qed.
Lemma plane_unit f X p : exact_eigen f X -> estimate_plane f X = Some p -> v3norm (v4h p) = 1.
Proof.
  intros S E. apply estimate_plane_some in E. destruct E as (_ & ->). cbn [v4h]. unfold v3norm.
  pose proof (eigen_col0 _ _ S) as C. destruct S as (O & _). set (V := eig_vecs _) in *. clearbody V.
  rewrite <- (orth_tr_sqn V _ O), C. unfold v3sqn, v3dot. cbn [vx vy vz].
  replace (1 * 1 + 0 * 0 + 0 * 0) with 1 by ring. apply sqrt_1.
Qed.
Lemma plane_through f X p : estimate_plane f X = Some p -> v3dot (v4h p) (mean X) + v4l p = 0.
Proof. intros E. apply estimate_plane_some in E. destruct E as (_ & ->). cbn [v4h v4l]. rewrite v3dot_comm. ring. Qed.
Lemma plane_best f X p : exact_eigen f X -> estimate_plane f X = Some p ->
  plane_error p X = vx (eig_vals (f (gram (centred X) (centred X)))) /\
  forall n d, v3norm n = 1 -> plane_error p X <= plane_error (mkV4 n d) X.
Proof.
  intros S E. pose proof (plane_through f X p E) as PT. apply estimate_plane_some in E. destruct E as (NE & Ep). cbv zeta in Ep.
  unfold exact_eigen in S. set (C := gram (centred X) (centred X)) in *. set (e := f C) in *. clearbody e.
  assert (PE : plane_error p X = vx (eig_vals e)).
  { destruct p as [n d]. rewrite plane_error_split by auto. fold C. cbn [v4h v4l] in PT. rewrite PT.
    rewrite (eigen_quad C e n S). injection Ep as -> _. rewrite (eigen_col0 C e S). cbn [vx vy vz]. ring. }
  split; auto. intros n d U. rewrite PE, plane_error_split by auto. fold C. rewrite (eigen_quad C e n S). cbv zeta.
  pose proof S as (O & _ & L1 & L2). pose proof (orth_tr_sqn _ n O) as Q.
  assert (v3sqn n = 1) by (rewrite <- v3norm_sq, U; ring). rewrite H in Q. unfold v3sqn, v3dot in Q.
  pose proof (pos_INR (length X)). set (b := v3dot n (mean X) + d). assert (0 <= b * b) by nra.
  assert (0 <= INR (length X) * (b * b)) by (apply Rmult_le_pos; auto).
  revert Q L1 L2. generalize (vx (m3app (m3tr (eig_vecs e)) n)), (vy (m3app (m3tr (eig_vecs e)) n)), (vz (m3app (m3tr (eig_vecs e)) n)), (vx (eig_vals e)), (vy (eig_vals e)), (vz (eig_vals e)).
  intros x y z l0 l1 l2 Q L1 L2. assert (0 <= y * y) by nra. assert (0 <= z * z) by nra.
  assert (0 <= (l1 - l0) * (y * y)) by (apply Rmult_le_pos; lra). assert (0 <= (l2 - l0) * (z * z)) by (apply Rmult_le_pos; lra).
  replace (x * x) with (1 - y * y - z * z) by lra. lra.
Qed.
(** when the two smallest eigenvalues differ the plane is unique up to sign *)
Lemma plane_unique f X p n d : exact_eigen f X -> estimate_plane f X = Some p ->
  vx (eig_vals (f (gram (centred X) (centred X)))) < vy (eig_vals (f (gram (centred X) (centred X)))) ->
  v3norm n = 1 -> plane_error (mkV4 n d) X <= plane_error p X -> mkV4 n d = p \/ mkV4 n d = v4scal (-1) p.
Proof.
  intros S E LT U B. destruct (plane_best f X p S E) as [PE _]. rewrite PE in B. clear PE.
  apply estimate_plane_some in E. destruct E as (NE & Ep). cbv zeta in Ep. rewrite plane_error_split in B by auto.
  unfold exact_eigen in S. set (C := gram (centred X) (centred X)) in *. set (e := f C) in *. clearbody e.
  rewrite (eigen_quad C e n S) in B. cbv zeta in B. pose proof S as (O & _ & L1 & L2).
  pose proof (orth_tr_sqn _ n O) as Q. assert (SQ : v3sqn n = 1) by (rewrite <- v3norm_sq, U; ring). rewrite SQ in Q. unfold v3sqn, v3dot in Q.
  assert (HN : 0 < INR (length X)) by (apply lt_0_INR; destruct X; [congruence | cbn; lia]).
  set (b := v3dot n (mean X) + d) in *. set (m := m3app (m3tr (eig_vecs e)) n) in *.
  assert (HB : 0 <= INR (length X) * (b * b)) by (apply Rmult_le_pos; nra).
  assert (Y0 : vy m = 0 /\ vz m = 0 /\ b = 0).
  { revert Q L1 L2 LT B HB HN. generalize (vx (eig_vals e)), (vy (eig_vals e)), (vz (eig_vals e)), (vx m), (vy m), (vz m), b, (INR (length X)).
    clear. intros l0 l1 l2 x y z b N Q L1 L2 LT B HB HN.
    assert (0 <= y * y) by nra. assert (0 <= z * z) by nra.
    assert (0 <= (l1 - l0) * (y * y)) by (apply Rmult_le_pos; lra). assert (0 <= (l2 - l0) * (z * z)) by (apply Rmult_le_pos; lra).
    replace (x * x) with (1 - y * y - z * z) in B by lra.
    assert (Ey : (l1 - l0) * (y * y) = 0) by lra. assert (Ez : (l2 - l0) * (z * z) = 0) by lra. assert (Eb : N * (b * b) = 0) by lra.
    apply Rmult_integral in Ey, Ez, Eb. repeat split.
    - destruct Ey as [Ey | Ey]; [lra | nra].
    - destruct Ez as [Ez | Ez]; [lra | nra].
    - destruct Eb as [Eb | Eb]; [lra | nra]. }
  destruct Y0 as (Y0 & Z0 & B0). rewrite Y0, Z0 in Q. assert (X0 : vx m = 1 \/ vx m = -1) by (destruct (Rle_dec 0 (vx m)); [left | right]; nra).
  assert (En : n = m3app (eig_vecs e) m).
  { unfold m. rewrite <- m3app_mul. apply orth_tr in O. unfold orthogonal in O. rewrite m3tr_tr in O. rewrite O, m3app_id. reflexivity. }
  assert (Ed : d = - v3dot n (mean X)) by (unfold b in B0; lra).
  rewrite Ep, Ed, En. destruct m as [m0 m1 m2]. cbn [vx vy vz] in Y0, Z0, X0. subst m1 m2. unfold col0.
  destruct X0 as [-> | ->]; [left | right]; generalize (mean X), (eig_vecs e); clear; lin.
Qed.
(** ** centroids *)
Lemma mean_move T X : X <> [] -> mean (map (move T) X) = move T (mean X).
Proof.
  intros NE. assert (HN : INR (length X) <> 0) by (apply not_0_INR; destruct X; [congruence | discriminate]).
  assert (G : v3sum (map (move T) X) = v3add (m3app (mR T) (v3sum X)) (v3scal (INR (length X)) (mt T))).
  { clear. induction X as [|x X IH]; [cbn; generalize (mR T), (mt T); lin|]. cbn [map v3sum fold_right]. fold (v3sum X) (v3sum (map (move T) X)).
    rewrite IH. cbn [length]. rewrite S_INR. unfold move. generalize (mR T), (mt T), (v3sum X), (INR (length X)). clear. lin. }
  unfold mean. rewrite G, map_length. clear G NE. unfold move. generalize dependent (INR (length X)). intros N HN.
  generalize (mR T), (mt T), (v3sum X). intros [? ? ? ? ? ? ? ? ?] [? ? ?] [? ? ?]. lin_unfold. apply v3_eq; field; auto.
Qed.
Lemma centroid_mean X c : estimate_centroid X = Some c ->
  v3scal (INR (length X)) c = mkV3 (lsum X vx) (lsum X vy) (lsum X vz).
Proof.
  unfold estimate_centroid. intros E. assert (X <> []) by (destruct X; congruence).
  assert (HN : INR (length X) <> 0) by (apply not_0_INR; destruct X; [congruence | discriminate]).
  assert (c = mean X) as -> by (destruct X; congruence). unfold mean. rewrite v3sum_lsum. unfold v3scal. cbn. apply v3_eq; field; auto.
Qed.

(** ** the accumulated system *)
Definition at_corr (T : M4) (c : corr) : V3 * V3 * M3 := let '(x, y, info) := c in (x, y, info T).
Definition rate (T : M4) (x : V3) (xi : V6) : V3 := v3opp (v3add (v3cross (v6w xi) (move T x)) (v6v xi)).
Lemma reg_fold T cs : forall J H xi eta, let '(J', H') := fold_left (reg_accum T) cs (J, H) in
  v6dot J' xi = v6dot J xi + lsum (map (at_corr T) cs) (fun c => let '(x, y, L) := c in v3dot (m3appT (v3sub y (move T x)) L) (rate T x xi)) /\
  v6dot xi (m6app H' eta) = v6dot xi (m6app H eta) + lsum (map (at_corr T) cs) (fun c => let '(x, y, L) := c in v3dot (rate T x xi) (m3app L (rate T x eta))).
Proof.
  induction cs as [|[[x y] info] cs IH]; intros J H xi eta; [cbn [fold_left map]; rewrite !lsum_nil; split; ring|].
  cbn [fold_left]. unfold reg_accum at 2. cbn [reg_accum]. 
  specialize (IH (v6add J (reg_grad (info T) (v3sub y (se3_transform T x)) (se3_transform T x))) (m6add H (reg_hess (info T) (se3_transform T x))) xi eta).
  destruct (fold_left (reg_accum T) cs _) as [J' H']. destruct IH as [-> ->].
  cbn [map]. rewrite !lsum_cons. cbn [at_corr]. unfold rate, move, reg_grad, reg_hess, reg_jac, se3_transform, hat3.
  generalize (v3add (m3app (mR T) x) (mt T)) (info T). intros z L.
  generalize (lsum (map (at_corr T) cs) (fun c : V3 * V3 * M3 => let '(x0, y0, L) := c in v3dot (m3appT (v3sub y0 (v3add (m3app (mR T) x0) (mt T))) L) (v3opp (v3add (v3cross (v6w xi) (v3add (m3app (mR T) x0) (mt T))) (v6v xi))))).
  generalize (lsum (map (at_corr T) cs) (fun c : V3 * V3 * M3 => let '(x0, y0, L) := c in v3dot (v3opp (v3add (v3cross (v6w xi) (v3add (m3app (mR T) x0) (mt T))) (v6v xi))) (m3app L (v3opp (v3add (v3cross (v6w eta) (v3add (m3app (mR T) x0) (mt T))) (v6v eta)))))).
  clear. intros a b. split; lin.
Qed.
Lemma reg_system_grad cs T xi : v6dot (fst (reg_system cs T)) xi =
  lsum (map (at_corr T) cs) (fun c => let '(x, y, L) := c in v3dot (m3appT (v3sub y (move T x)) L) (rate T x xi)).
Proof.
  pose proof (reg_fold T cs v6zero m6zero xi xi) as F. unfold reg_system. destruct (fold_left _ _ _) as [J H]. destruct F as [F _].
  cbn [fst]. rewrite F. replace (v6dot v6zero xi) with 0 by (destruct xi; lin). ring.
Qed.
Lemma reg_system_hess cs T xi eta : v6dot xi (m6app (snd (reg_system cs T)) eta) =
  lsum (map (at_corr T) cs) (fun c => let '(x, y, L) := c in v3dot (rate T x xi) (m3app L (rate T x eta))).
Proof.
  pose proof (reg_fold T cs v6zero m6zero xi eta) as F. unfold reg_system. destruct (fold_left _ _ _) as [J H]. destruct F as [_ F].
  cbn [snd]. rewrite F. replace (v6dot xi (m6app m6zero eta)) with 0 by (destruct xi, eta; lin). ring.
Qed.
Lemma quad3_sym L u v : sym3 L -> quad3 L u v = quad3 L v u.
Proof. unfold quad3, sym3. intros S. rewrite <- S at 1. destruct L, u, v. clear. lin. Qed.
(** linear error of a symmetric system *)
Lemma linear_error_expand l T xi : Forall (fun c => sym3 (snd c)) l ->
  linear_error l T xi = weighted_error l T
   + 2 * lsum l (fun c => let '(x, y, L) := c in v3dot (m3appT (v3sub y (move T x)) L) (rate T x xi))
   + lsum l (fun c => let '(x, y, L) := c in v3dot (rate T x xi) (m3app L (rate T x xi))).
Proof.
  intros F. unfold linear_error, weighted_error. rewrite <- lsum_scal, <- !lsum_plus. apply lsum_ext.
  intros [[x y] L] Hin. rewrite Forall_forall in F. specialize (F _ Hin). cbn [snd] in F. cbv zeta.
  unfold rate. generalize (v3sub y (move T x)), (v3add (v3cross (v6w xi) (move T x)) (v6v xi)). intros r d.
  pose proof (quad3_sym L d r F) as Q. revert Q. unfold quad3. clear. intros Q.
  replace (v3dot (v3sub r d) (m3app L (v3sub r d))) with
    (v3dot r (m3app L r) - v3dot r (m3app L d) - v3dot d (m3app L r) + v3dot d (m3app L d)) by lin.
  rewrite Q. destruct L, r, d. lin.
Qed.
Lemma v6dot_all u v : (forall w, v6dot u w = v6dot v w) -> u = v.
Proof.
  intros H. assert (E : v6dot (v6sub u v) (v6sub u v) = 0).
  { transitivity (v6dot u (v6sub u v) - v6dot v (v6sub u v)); [clear; lin | rewrite H; ring]. }
  unfold v6dot in E. pose proof (v3sqn_nonneg (v6w (v6sub u v))) as P1. pose proof (v3sqn_nonneg (v6v (v6sub u v))) as P2.
  assert (Z1 : v6w (v6sub u v) = v3zero) by (apply v3sqn_zero; unfold v3sqn in *; lra).
  assert (Z2 : v6v (v6sub u v) = v3zero) by (apply v3sqn_zero; unfold v3sqn in *; lra).
  destruct u as [[a b c] [d e f]], v as [[a' b' c'] [d' e' f']]. lin_unfold_in Z1. lin_unfold_in Z2.
  injection Z1 as ? ? ?. injection Z2 as ? ? ?. apply v6_eq; apply v3_eq; lra.
Qed.
Lemma solved_gn cs T d : Forall (fun c => sym3 (snd c) /\ psd3 (snd c)) (map (at_corr T) cs) ->
  m6app (snd (reg_system cs T)) d = v6opp (fst (reg_system cs T)) -> gn_step (map (at_corr T) cs) T d.
Proof.
  intros F E xi. assert (FS : Forall (fun c => sym3 (snd c)) (map (at_corr T) cs)) by (eapply Forall_impl; [|exact F]; intros c Hc; apply Hc).
  rewrite !linear_error_expand by auto. rewrite <- !reg_system_grad, <- !reg_system_hess.
  set (H := snd (reg_system cs T)) in *. set (J := fst (reg_system cs T)) in *.
  assert (HS : forall u v, v6dot u (m6app H v) = v6dot v (m6app H u)).
  { intros u v. subst H. rewrite !reg_system_hess. apply lsum_ext. intros [[x y] L] Hin. rewrite Forall_forall in FS. specialize (FS _ Hin).
    apply (quad3_sym L _ _ FS). }
  assert (HP : 0 <= v6dot (v6sub xi d) (m6app H (v6sub xi d))).
  { subst H. rewrite reg_system_hess. rewrite <- (lsum_0 (map (at_corr T) cs)). apply lsum_le. intros [[x y] L] Hin.
    rewrite Forall_forall in F. destruct (F _ Hin) as [_ P]. apply P. }
  assert (X1 : v6dot (v6sub xi d) (m6app H (v6sub xi d)) = v6dot xi (m6app H xi) - v6dot xi (m6app H d) - v6dot d (m6app H xi) + v6dot d (m6app H d))
    by (clear; clearbody H; lin).
  rewrite (HS d xi), E in X1. rewrite E.
  assert (X2 : v6dot d (v6opp J) = - v6dot J d) by (clear; clearbody J; lin).
  assert (X3 : v6dot xi (v6opp J) = - v6dot J xi) by (clear; clearbody J; lin). lra.
Qed.

(** ** the loop *)
Lemma reg_loop_count inv6 junk tol cs left : forall iters T n T', reg_loop inv6 junk tol cs left iters T = (n, T') ->
  (iters <= n)%nat /\ (0 < left -> iters < n)%nat /\ (n <= iters + left)%nat.
Proof.
  induction left as [|left IH]; intros iters T n T' H; cbn in H; [injection H as <- <-; lia|].
  match type of H with (if ?c then _ else _) = _ => destruct c eqn:C end.
  - apply IH in H. lia.
  - injection H as <- _. lia.
Qed.
(** steps of the loop: T' is T after a list of left updates *)
Lemma reg_loop_updates inv6 junk tol cs left : forall iters T n T', reg_loop inv6 junk tol cs left iters (Some T) = (n, Some T') ->
  exists ds, T' = fold_left se3_update_lhs ds T /\ (length ds + iters = n)%nat.
Proof.
  assert (NN : forall left iters n T', reg_loop inv6 junk tol cs left iters None = (n, Some T') -> False).
  { induction left0 as [|left0 IH]; intros iters n T' H; cbn in H; [discriminate|].
    match type of H with (if ?c then _ else _) = _ => destruct c end; [eapply IH; eauto | discriminate]. }
  induction left as [|left IH]; intros iters T n T' H; cbn [reg_loop] in H; [injection H as <- <-; exists []; split; [reflexivity | cbn; lia]|].
  destruct (reg_system cs T) as [J Hm]. destruct (inv6 Hm) as [Hi|].
  - match type of H with (if ?c then _ else _) = _ => destruct c eqn:C end.
    + apply IH in H. destruct H as (ds & -> & E). exists (v6opp (m6app Hi J) :: ds). split; [reflexivity | cbn [length]; lia].
    + injection H as <- <-. exists [v6opp (m6app Hi J)]. split; [reflexivity | cbn; lia].
  - match type of H with (if ?c then _ else _) = _ => destruct c eqn:C end; [exfalso; eapply NN; eauto | discriminate].
Qed.
Lemma fold_updates_run ds T : fold_left se3_update_lhs ds T = se3_run T (map Se3UpdLhs ds).
Proof. unfold se3_run. revert T. induction ds as [|d ds IH]; intros T; cbn; auto. Qed.
Lemma reg_loop_rigid inv6 junk tol cs T n T' : rigid T -> reg_loop inv6 junk tol cs 20 0 (Some T) = (n, Some T') ->
  near_rigid (20 * / 10 ^ 30) T'.
Proof.
  intros RT H. pose proof (reg_loop_count _ _ _ _ _ _ _ _ _ H) as (_ & _ & C). apply reg_loop_updates in H. destruct H as (ds & -> & L).
  rewrite fold_updates_run. assert (L2 : INR (length (map Se3UpdLhs ds)) <= 20) by (rewrite map_length; replace 20 with (INR 20) by (cbn; ring); apply le_INR; lia).
  assert (P : 0 < / 10 ^ 30) by (apply Rinv_0_lt_compat, pow_lt; lra).
  assert (P2 : / 10 ^ 30 < / 20).
  { apply Rinv_lt_contravar; [apply Rmult_lt_0_compat; [lra | apply pow_lt; lra]|].
    apply Rlt_le_trans with (10 ^ 2); [lra|]. apply Rle_pow; [lra | lia]. }
  destruct (se3_run_near_rigid (map Se3UpdLhs ds) T RT) as (A & B & D).
  - apply Forall_forall. intros o Ho. apply in_map_iff in Ho. destruct Ho as (d & <- & _). exact I.
  - pose proof (pos_INR (length (map Se3UpdLhs ds))). nra.
  - split; [|auto]. destruct A as [A1 A2]. split; auto. intros v. specialize (A2 v). pose proof (v3sqn_nonneg v). split; [|lra].
    eapply Rle_trans; [|apply A2]. apply Rmult_le_compat_r; auto. nra.
Qed.
(** the Gauss-Newton trace *)
Definition inverts (inv6 : M6 -> option M6) : Prop := forall H Hi, inv6 H = Some Hi -> m6mul H Hi = m6id.
Lemma reg_loop_run inv6 junk tol cs at_ :
  (forall T, at_ T = map (at_corr T) cs) -> (forall H Hi, inv6 H = Some Hi -> m6mul H Hi = m6id) ->
  (forall T, Forall (fun c => sym3 (snd c) /\ psd3 (snd c)) (at_ T)) ->
  forall left iters T n T', (left + iters = 20)%nat -> (0 < left)%nat ->
  reg_loop inv6 junk tol cs left iters (Some T) = (n, Some T') -> gn_run at_ tol iters T n T'.
Proof.
  intros HA HI HP. assert (NN : forall left iters n T', reg_loop inv6 junk tol cs left iters None = (n, Some T') -> False).
  { induction left as [|left0 IH]; intros iters n T' H; cbn in H; [discriminate|].
    match type of H with (if ?c then _ else _) = _ => destruct c end; [eapply IH; eauto | discriminate]. }
  induction left as [|left IH]; intros iters T n T' L P H; [lia|]. cbn [reg_loop] in H.
  destruct (reg_system cs T) as [J Hm] eqn:ES. destruct (inv6 Hm) as [Hi|] eqn:EI.
  2:{ match type of H with (if ?c then _ else _) = _ => destruct c eqn:C end; [exfalso; eapply NN; eauto | discriminate]. }
  assert (G : gn_step (at_ T) T (v6opp (m6app Hi J))).
  { rewrite HA. specialize (HP T). rewrite HA in HP. apply solved_gn; auto. rewrite ES. cbn [fst snd].
    transitivity (v6opp (m6app (m6mul Hm Hi) J)); [rewrite m6app_mul; generalize (m6app Hi J); clear; lin|]. rewrite (HI _ _ EI).
    clear. lin. }
  match type of H with (if ?c then _ else _) = _ => destruct c eqn:C end.
  - apply andb_prop in C. destruct C as [C1 C2]. apply Rltb_true in C1. apply Nat.ltb_lt in C2.
    eapply gn_more; [exact G | exact C1 | exact C2|]. apply IH; auto; lia.
  - injection H as <- <-. apply gn_stop; auto. apply andb_false_iff in C. destruct C as [C | C].
    + left. apply Rltb_false in C. exact C.
    + right. apply Nat.ltb_ge in C. lia.
Qed.
(** aligned data *)
Lemma aligned_grad cs T : (forall c, In c cs -> snd (fst c) = move T (fst (fst c))) -> fst (reg_system cs T) = v6zero.
Proof.
  intros H. apply v6dot_all. intros w. rewrite reg_system_grad, lsum_map. rewrite lsum_zero.
  - destruct w; lin.
  - intros [[x y] info] Hin. specialize (H _ Hin). cbn in H. subst y. cbn [at_corr].
    generalize (move T x), (rate T x w), (info T). clear. lin.
Qed.
Lemma se3_of_zero : se3_of_vec v6zero = m4id.
Proof. change v6zero with (mkV6 v3zero v3zero). rewrite se3_exp_zero_rot. reflexivity. Qed.
Lemma zero_grad_loop inv6 junk tol cs T Hi left : 0 <= tol -> fst (reg_system cs T) = v6zero -> inv6 (snd (reg_system cs T)) = Some Hi ->
  reg_loop inv6 junk tol cs (S left) 0 (Some T) = (1%nat, Some T).
Proof.
  intros HT G EI. cbn [reg_loop]. destruct (reg_system cs T) as [J H]. cbn [fst snd] in *. rewrite EI, G.
  replace (v6opp (m6app Hi v6zero)) with v6zero by (destruct Hi; lin).
  unfold se3_update_lhs. rewrite se3_of_zero, m4mul_id_l.
  replace (Rltb tol (v6norm v6zero)) with false; auto. symmetry. apply Rltb_false. unfold v6norm.
  replace (v6dot v6zero v6zero) with 0 by lin. rewrite sqrt_0. auto.
Qed.
Lemma gicp_corrs_at inv3 X Y CX CY T : map (at_corr T) (gicp_corrs inv3 X Y CX CY) = gicp_at inv3 X Y CX CY T.
Proof. unfold gicp_corrs, gicp_at. rewrite map_map. reflexivity. Qed.
Lemma weighted_corrs_at X Y ws T : map (at_corr T) (weighted_corrs X Y ws) = weighted_at X Y ws.
Proof. unfold weighted_corrs, weighted_at. rewrite map_map. reflexivity. Qed.
Lemma Some_inj {A} (a b : A) : Some a = Some b -> a = b. Proof. congruence. Qed.
Lemma gicp_some inv3 inv6 junk X Y CX CY T tol r : gicp inv3 inv6 junk X Y CX CY T tol = Some r ->
  (length X <= length Y /\ length X <= length CX /\ length X <= length CY)%nat /\
  reg_loop inv6 junk tol (gicp_corrs inv3 X Y CX CY) 20 0 (Some T) = r.
Proof.
  unfold gicp. destruct (_ && _ && _) eqn:E; [|discriminate]. intros H. apply Some_inj in H.
  rewrite !andb_true_iff, !Nat.leb_le in E. split; [tauto | exact H].
Qed.
Lemma weighted_some inv6 junk X Y ws T tol r : weighted_point inv6 junk X Y ws T tol = Some r ->
  (length X <= length Y /\ length X <= length ws)%nat /\
  reg_loop inv6 junk tol (weighted_corrs X Y ws) 20 0 (Some T) = r.
Proof.
  unfold weighted_point. destruct (_ && _) eqn:E; [|discriminate]. intros H. apply Some_inj in H.
  rewrite !andb_true_iff, !Nat.leb_le in E. split; [tauto | exact H].
Qed.
