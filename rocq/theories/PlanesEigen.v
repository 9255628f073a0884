(** Symmetric 4x4 matrices have a smallest eigenvalue; its derivative. *)
Require Import Reals List Arith Lia Lra Psatz Bool.
From Verif Require Import Lin LinFacts SO3 SE3 SpecGeom SO3Exp SO3Ln SE3Alg Sums Registration SpecRegistration ArunProofs Spectral Planes SpecPlanes PlanesProofs.
Import ListNotations.
Local Open Scope R_scope.

Lemma entry_low a x y M N : 0 <= M -> 0 <= N -> x * x <= M * M -> y * y <= N * N -> - (Rabs a * (M * N)) <= a * (x * y) <= Rabs a * (M * N).
Proof.
  intros HM HN A B. assert (X : - M <= x <= M) by (split; nra). assert (Y : - N <= y <= N) by (split; nra).
  assert (P : - (M * N) <= x * y <= M * N) by (split; nra). pose proof (Rabs_pos a). unfold Rabs in *. destruct (Rcase_abs a); split; nra.
Qed.
Definition abs_sum (A : M4) : R :=
  Rabs (a00 (mR A)) + Rabs (a01 (mR A)) + Rabs (a02 (mR A)) + Rabs (vx (mt A)) + Rabs (a10 (mR A)) + Rabs (a11 (mR A)) + Rabs (a12 (mR A)) + Rabs (vy (mt A)) +
  Rabs (a20 (mR A)) + Rabs (a21 (mR A)) + Rabs (a22 (mR A)) + Rabs (vz (mt A)) + Rabs (vx (mb A)) + Rabs (vy (mb A)) + Rabs (vz (mb A)) + Rabs (mc A).
Definition bil4 (A : M4) (u v : V4) : R := v4dot u (m4app A v).
Lemma bil_bound A u v M N : 0 <= M -> 0 <= N -> v4dot u u <= M * M -> v4dot v v <= N * N -> - (abs_sum A * (M * N)) <= bil4 A u v <= abs_sum A * (M * N).
Proof.
  destruct A as [[a b c d e f g h i] [j k l] [m n o] q], u as [[u1 u2 u3] u4], v as [[v1 v2 v3] v4]. intros HM HN U V. lin_unfold_in U. lin_unfold_in V.
  unfold abs_sum, bil4. lin_unfold.
  assert (U1 : u1 * u1 <= M * M) by nra. assert (U2 : u2 * u2 <= M * M) by nra. assert (U3 : u3 * u3 <= M * M) by nra. assert (U4 : u4 * u4 <= M * M) by nra.
  assert (V1 : v1 * v1 <= N * N) by nra. assert (V2 : v2 * v2 <= N * N) by nra. assert (V3 : v3 * v3 <= N * N) by nra. assert (V4 : v4 * v4 <= N * N) by nra.
  pose proof (entry_low a u1 v1 M N HM HN U1 V1). pose proof (entry_low b u1 v2 M N HM HN U1 V2). pose proof (entry_low c u1 v3 M N HM HN U1 V3). pose proof (entry_low j u1 v4 M N HM HN U1 V4).
  pose proof (entry_low d u2 v1 M N HM HN U2 V1). pose proof (entry_low e u2 v2 M N HM HN U2 V2). pose proof (entry_low f u2 v3 M N HM HN U2 V3). pose proof (entry_low k u2 v4 M N HM HN U2 V4).
  pose proof (entry_low g u3 v1 M N HM HN U3 V1). pose proof (entry_low h u3 v2 M N HM HN U3 V2). pose proof (entry_low i u3 v3 M N HM HN U3 V3). pose proof (entry_low l u3 v4 M N HM HN U3 V4).
  pose proof (entry_low m u4 v1 M N HM HN U4 V1). pose proof (entry_low n u4 v2 M N HM HN U4 V2). pose proof (entry_low o u4 v3 M N HM HN U4 V3). pose proof (entry_low q u4 v4 M N HM HN U4 V4).
  clear U V U1 U2 U3 U4 V1 V2 V3 V4.
  replace (u1 * (a * v1 + b * v2 + c * v3 + v4 * j) + u2 * (d * v1 + e * v2 + f * v3 + v4 * k) + u3 * (g * v1 + h * v2 + i * v3 + v4 * l) + u4 * (m * v1 + n * v2 + o * v3 + q * v4))
    with (a * (u1 * v1) + b * (u1 * v2) + c * (u1 * v3) + j * (u1 * v4) + d * (u2 * v1) + e * (u2 * v2) + f * (u2 * v3) + k * (u2 * v4) +
          g * (u3 * v1) + h * (u3 * v2) + i * (u3 * v3) + l * (u3 * v4) + m * (u4 * v1) + n * (u4 * v2) + o * (u4 * v3) + q * (u4 * v4)) by ring.
  rewrite !Rmult_plus_distr_r. split; lra.
Qed.
Lemma v4dot_nonneg u : 0 <= v4dot u u.
Proof. destruct u as [[a b c] d]. lin_unfold. nra. Qed.
Lemma v4dot_zero u : v4dot u u = 0 -> u = v4zero.
Proof.
  destruct u as [[a b c] d]. intros H. lin_unfold_in H. assert (a = 0) by nra. assert (b = 0) by nra. assert (c = 0) by nra. assert (d = 0) by nra. subst. reflexivity.
Qed.
Lemma normalise4 u : v4dot u u <> 0 -> {k | unit4 (v4scal k u) /\ k * k * v4dot u u = 1}.
Proof.
  intros NZ. pose proof (v4dot_nonneg u) as P. assert (0 < v4dot u u) as P' by lra. pose proof (sqrt_lt_R0 _ P') as Q. pose proof (sqrt_sqrt _ P) as S.
  exists (/ sqrt (v4dot u u)). assert (E : / sqrt (v4dot u u) * / sqrt (v4dot u u) * v4dot u u = 1) by (rewrite <- S at 3; field; lra).
  split; auto. unfold unit4. etransitivity; [|exact E]. generalize (/ sqrt (v4dot u u)). clear. lin.
Qed.
Lemma quad_scal A k u : quad4 A (v4scal k u) = k * k * quad4 A u.
Proof. unfold quad4. lin. Qed.
Lemma psd_of_unit A l : (forall u, unit4 u -> l <= quad4 A u) -> forall u, l * v4dot u u <= quad4 A u.
Proof.
  intros H u. destruct (Req_dec (v4dot u u) 0) as [Z | NZ].
  - rewrite Z. apply v4dot_zero in Z. subst. replace (quad4 A v4zero) with 0 by (unfold quad4; lin). lra.
  - destruct (normalise4 u NZ) as (k & U & K). specialize (H _ U). rewrite quad_scal in H.
    pose proof (v4dot_nonneg u). assert (P : v4dot u u * l <= v4dot u u * (k * k * quad4 A u)) by (apply Rmult_le_compat_l; auto).
    replace (v4dot u u * (k * k * quad4 A u)) with (k * k * v4dot u u * quad4 A u) in P by ring. rewrite K in P. lra.
Qed.
Lemma unit_inf A : {l | (forall u, unit4 u -> l <= quad4 A u) /\ forall e, 0 < e -> exists u, unit4 u /\ quad4 A u < l + e}.
Proof.
  destruct (completeness (fun y => exists u, unit4 u /\ y = - quad4 A u)) as (m & UB & LUB).
  - exists (abs_sum A). intros y (u & U & ->). unfold unit4 in U. pose proof (bil_bound A u u 1 1 ltac:(lra) ltac:(lra) ltac:(lra) ltac:(lra)) as B. unfold bil4, quad4 in *. lra.
  - exists (- quad4 A (mkV4 v3zero 1)), (mkV4 v3zero 1). split; auto. unfold unit4. lin.
  - exists (- m). split.
    + intros u U. assert (- quad4 A u <= m) by (apply UB; eauto). lra.
    + intros e He. apply Classical_Prop.NNPP. intros N. assert (m <= m - e); [|lra]. apply LUB. intros y (u & U & ->).
      destruct (Rlt_dec (quad4 A u) (- m + e)) as [L | L]; [exfalso; apply N; eauto | lra].
Qed.
Lemma psd_null A u : m4tr A = A -> (forall w, 0 <= quad4 A w) -> quad4 A u = 0 -> m4app A u = v4zero.
Proof.
  intros S P Z. apply v4dot_zero. set (w := m4app A u).
  assert (E : forall t, quad4 A (v4add u (v4scal t w)) = quad4 A u + 2 * t * v4dot w w + t * t * quad4 A w).
  { intros t. unfold w. clear Z P w. destruct A as [[a b c d e f g h i] [j k l] [m n o] p]. unfold m4tr, m3tr in S. cbn in S. injection S; intros; subst. unfold quad4. clear. lin. }
  pose proof (v4dot_nonneg w) as Pw. pose proof (P w) as Qw. destruct (Req_dec (v4dot w w) 0) as [|NZ]; auto. exfalso.
  set (D := v4dot w w) in *. set (q := quad4 A w) in *. pose proof (P (v4add u (v4scal (- D / (q + 1)) w))) as H. rewrite E, Z in H.
  assert (B : 0 < q + 1) by lra. set (r := D / (q + 1)). assert (R : r * (q + 1) = D) by (unfold r; field; lra). assert (0 < r) by (apply Rdiv_lt_0_compat; lra).
  replace (- D / (q + 1)) with (- r) in H by (unfold r; field; lra). nra.
Qed.
Lemma attained A : m4tr A = A -> (forall w, 0 <= quad4 A w) -> (forall e, 0 < e -> exists u, unit4 u /\ quad4 A u < e) -> {u | unit4 u /\ quad4 A u = 0}.
Proof.
  intros S P I. destruct A as [M b b' c]. unfold m4tr in S. cbn in S. injection S as SM SB _. subst b'.
  destruct (diagonalise M SM) as (V & [d0 d1 d2] & O & EM).
  assert (Q : forall x y, quad4 (mkM4 M b b c) (mkV4 x y) = v3dot x (m3app M x) + 2 * y * v3dot b x + y * y * c) by (intros x y; unfold quad4; clear; lin).
  assert (D : forall x, v3dot x (m3app M x) = d0 * (vx (m3app (m3tr V) x) * vx (m3app (m3tr V) x)) + d1 * (vy (m3app (m3tr V) x) * vy (m3app (m3tr V) x)) + d2 * (vz (m3app (m3tr V) x) * vz (m3app (m3tr V) x))).
  { intros x. rewrite EM. clear. destruct V, x. unfold diag3. lin. }
  assert (N : forall x, vx (m3app (m3tr V) x) * vx (m3app (m3tr V) x) + vy (m3app (m3tr V) x) * vy (m3app (m3tr V) x) + vz (m3app (m3tr V) x) * vz (m3app (m3tr V) x) = v3sqn x).
  { intros x. transitivity (v3dot x (m3app (m3mul V (m3tr V)) x)); [clear; destruct V, x; lin|]. apply orth_tr in O. unfold orthogonal in O. rewrite m3tr_tr in O. rewrite O. clear. destruct x; lin. }
  assert (VV : m3mul (m3tr V) V = m3id) by exact O.
  assert (C : forall z, m3app (m3tr V) (m3app V z) = z) by (intros z; transitivity (m3app (m3mul (m3tr V) V) z); [clear; destruct V, z; lin | rewrite VV; clear; destruct z; lin]).
  assert (CN : forall z, v3sqn (m3app V z) = v3sqn z) by (intros z; rewrite <- N, C; destruct z; clear; lin).
  assert (AX : forall z, v3sqn z = 1 -> quad4 (mkM4 M b b c) (mkV4 (m3app V z) 0) = d0 * (vx z * vx z) + d1 * (vy z * vy z) + d2 * (vz z * vz z) /\ unit4 (mkV4 (m3app V z) 0)).
  { intros z Hz. split; [rewrite Q, D, C; ring|]. unfold unit4. transitivity (v3sqn (m3app V z)); [generalize (m3app V z); clear; lin | rewrite CN; auto]. }
  pose proof (AX (mkV3 1 0 0) ltac:(lin)) as [A0 B0]. pose proof (AX (mkV3 0 1 0) ltac:(lin)) as [A1 B1]. pose proof (AX (mkV3 0 0 1) ltac:(lin)) as [A2 B2].
  cbn [vx vy vz] in A0, A1, A2.
  pose proof (P (mkV4 (m3app V (mkV3 1 0 0)) 0)) as P0. rewrite A0 in P0. pose proof (P (mkV4 (m3app V (mkV3 0 1 0)) 0)) as P1. rewrite A1 in P1. pose proof (P (mkV4 (m3app V (mkV3 0 0 1)) 0)) as P2. rewrite A2 in P2.
  destruct (Req_EM_T d0 0) as [Z0 | Z0]; [eexists; split; [exact B0 | rewrite A0; lra]|].
  destruct (Req_EM_T d1 0) as [Z1 | Z1]; [eexists; split; [exact B1 | rewrite A1; lra]|].
  destruct (Req_EM_T d2 0) as [Z2 | Z2]; [eexists; split; [exact B2 | rewrite A2; lra]|].
  clear A0 A1 A2 B0 B1 B2 AX.
  assert (0 < d0) by lra. assert (0 < d1) by lra. assert (0 < d2) by lra. clear P0 P1 P2.
  set (kk := m3app V (mkV3 (vx (m3app (m3tr V) b) / d0) (vy (m3app (m3tr V) b) / d1) (vz (m3app (m3tr V) b) / d2))).
  assert (MK : m3app M kk = b).
  { rewrite EM. unfold kk. transitivity (m3app V (m3app (diag3 (mkV3 d0 d1 d2)) (m3app (m3tr V) (m3app V (mkV3 (vx (m3app (m3tr V) b) / d0) (vy (m3app (m3tr V) b) / d1) (vz (m3app (m3tr V) b) / d2)))))).
    - generalize (m3app V (mkV3 (vx (m3app (m3tr V) b) / d0) (vy (m3app (m3tr V) b) / d1) (vz (m3app (m3tr V) b) / d2))). clear. intros z. destruct V, z. unfold diag3. lin.
    - rewrite C. transitivity (m3app V (m3app (m3tr V) b)).
      + f_equal. destruct (m3app (m3tr V) b) as [x y z]. unfold diag3. lin_unfold. apply v3_eq; field; auto.
      + transitivity (m3app (m3mul V (m3tr V)) b); [clear; destruct V, b; lin|]. apply orth_tr in O. unfold orthogonal in O. rewrite m3tr_tr in O. rewrite O. clear; destruct b; lin. }
  clearbody kk. set (s := c - v3dot b kk).
  assert (SQ : forall x y, quad4 (mkM4 M b b c) (mkV4 x y) = v3dot (v3add x (v3scal y kk)) (m3app M (v3add x (v3scal y kk))) + s * (y * y)).
  { intros x y. rewrite Q. unfold s. rewrite <- MK. revert SM. clear. intros SM. destruct M as [a00 a01 a02 a10 a11 a12 a20 a21 a22]. unfold sym3, m3tr in SM. cbn in SM. injection SM; intros; subst. clear SM. destruct x, kk. lin. }
  pose proof (P (mkV4 (v3scal (-1) kk) 1)) as PS. rewrite SQ in PS. replace (v3add (v3scal (-1) kk) (v3scal 1 kk)) with v3zero in PS by (clear; destruct kk; lin).
  replace (v3dot v3zero (m3app M v3zero)) with 0 in PS by (clear; destruct M; lin).
  destruct (Req_EM_T s 0) as [Zs | Zs].
  - destruct (normalise4 (mkV4 (v3scal (-1) kk) 1)) as (k & U & _).
    { destruct kk as [x y z]. lin_unfold. nra. }
    exists (v4scal k (mkV4 (v3scal (-1) kk) 1)). split; auto. rewrite quad_scal, SQ. replace (v3add (v3scal (-1) kk) (v3scal 1 kk)) with v3zero by (clear; destruct kk; lin).
    replace (v3dot v3zero (m3app M v3zero)) with 0 by (clear; destruct M; lin). rewrite Zs. ring.
  - exfalso. assert (0 < s) by lra. clear PS.
    set (m := Rmin d0 (Rmin d1 d2)). assert (Hm : 0 < m /\ m <= d0 /\ m <= d1 /\ m <= d2) by (unfold m, Rmin; repeat destruct (Rle_dec _ _); lra).
    destruct Hm as (M0 & M1 & M2 & M3). clearbody m.
    assert (LB : forall x, m * v3sqn x <= v3dot x (m3app M x)).
    { intros x. rewrite D, <- N. generalize (vx (m3app (m3tr V) x)), (vy (m3app (m3tr V) x)), (vz (m3app (m3tr V) x)). intros p q r. nra. }
    pose proof (v3sqn_nonneg kk) as NK. set (L := 2 / m + (2 * v3sqn kk + 1) / s). assert (PL : 0 < L) by (unfold L; apply Rplus_lt_0_compat; apply Rdiv_lt_0_compat; lra).
    destruct (I (/ L)) as ([x y] & U & LT); [apply Rinv_0_lt_compat; auto|]. rewrite SQ in LT.
    pose proof (LB (v3add x (v3scal y kk))) as LB1. set (z := v3add x (v3scal y kk)) in *.
    assert (NX : v3sqn x <= 2 * v3sqn z + 2 * (y * y) * v3sqn kk).
    { unfold z. clear. destruct x as [x1 x2 x3], kk as [k1 k2 k3]. lin_unfold. 
      pose proof (Rle_0_sqr (x1 + 2 * (y * k1))). pose proof (Rle_0_sqr (x2 + 2 * (y * k2))). pose proof (Rle_0_sqr (x3 + 2 * (y * k3))). unfold Rsqr in *. lra. }
    assert (U1 : v3sqn x + y * y = 1) by (unfold unit4 in U; rewrite <- U; clear; destruct x; lin).
    assert (F : 1 <= L * (v3dot z (m3app M z) + s * (y * y))).
    { set (g := v3dot z (m3app M z)) in *. set (n := v3sqn z) in *. set (Y := y * y) in *. assert (0 <= Y) by (unfold Y; nra). assert (0 <= n) by apply v3sqn_nonneg.
      assert (T1 : 2 * n <= 2 / m * g). { apply (Rmult_le_reg_l m); auto. replace (m * (2 / m * g)) with (2 * g) by (field; lra). nra. }
      assert (T2 : (2 * v3sqn kk + 1) * Y = (2 * v3sqn kk + 1) / s * (s * Y)) by (field; lra).
      assert (0 <= g) by nra.
      assert (T3 : 0 <= 2 / m * (s * Y)) by (apply Rmult_le_pos; [apply Rlt_le, Rdiv_lt_0_compat; lra | nra]).
      assert (T4 : 0 <= (2 * v3sqn kk + 1) / s * g) by (apply Rmult_le_pos; [apply Rlt_le, Rdiv_lt_0_compat; lra | auto]).
      unfold L. lra. }
    apply (Rmult_lt_compat_l L) in LT; auto. rewrite Rinv_r in LT by lra. lra.
Qed.
Lemma eigen4_exists Q : m4tr Q = Q -> {e | eigen4_of Q e}.
Proof.
  intros S. destruct (unit_inf Q) as (l & L & I). pose proof (psd_of_unit Q l L) as P. set (A := m4sub Q (m4scal l m4id)).
  assert (QA : forall u, quad4 A u = quad4 Q u - l * v4dot u u) by (intros u; unfold A, quad4; clear; lin).
  destruct (attained A) as (u & U & Z).
  - unfold A. transitivity (m4sub (m4tr Q) (m4scal l m4id)); [clear; lin | rewrite S; auto].
  - intros w. rewrite QA. specialize (P w). lra.
  - intros e He. destruct (I e He) as (u & U & H). exists u. split; auto. rewrite QA. unfold unit4 in U. rewrite U. lra.
  - exists (mkEigen4 l u). split; [auto|]. split; cbn [e4_val e4_vec]; [|exact P].
    assert (E : m4app A u = v4zero).
    { apply psd_null; auto; [unfold A; transitivity (m4sub (m4tr Q) (m4scal l m4id)); [clear; lin | rewrite S; auto]|]. intros w. rewrite QA. specialize (P w). lra. }
    transitivity (v4add (m4app A u) (v4scal l u)); [unfold A; clear; lin | rewrite E; clear; lin].
Qed.
(** one oracle that is exact for every symmetric matrix *)
Lemma exact4_all_exists : exists eigs, forall Q, m4tr Q = Q -> exact4 eigs Q.
Proof.
  assert (S : forall Q, m4tr (m4scal (1 / 2) (plus_tr Q)) = m4scal (1 / 2) (plus_tr Q)) by (intros Q; unfold plus_tr; lin).
  exists (fun Q => proj1_sig (eigen4_exists _ (S Q))). intros Q H. unfold exact4. destruct (eigen4_exists _ (S Q)) as [e E]. cbn.
  replace (m4scal (1 / 2) (plus_tr Q)) with Q in E; [auto|]. unfold plus_tr. rewrite H. generalize Q. clear. intros Q. destruct Q as [[] [] [] ?]. lin_unfold. lin_split; field.
Qed.

(** ** Derivative of the smallest eigenvalue *)
Definition nearby (P : R -> Prop) : Prop := exists d, 0 < d /\ forall s, Rabs s < d -> P s.
Lemma nearby_and P Q : nearby P -> nearby Q -> nearby (fun s => P s /\ Q s).
Proof.
  intros (d1 & D1 & H1) (d2 & D2 & H2). exists (Rmin d1 d2). split; [apply Rmin_glb_lt; auto|]. intros s Hs.
  pose proof (Rmin_l d1 d2). pose proof (Rmin_r d1 d2). split; [apply H1 | apply H2]; lra.
Qed.
Lemma nearby_imp (P Q : R -> Prop) : nearby P -> (forall s, P s -> Q s) -> nearby Q.
Proof. intros (d & D & H) I. exists d. split; auto. Qed.
Definition small_o (f : R -> R) (a : R) : Prop := forall e, 0 < e -> nearby (fun s => Rabs (f s - f 0 - s * a) <= e * Rabs s).
Lemma small_o_of f a : derivable_pt_lim f 0 a -> small_o f a.
Proof.
  intros H e He. destruct (H e He) as (d & Hd). exists d. split; [apply cond_pos|]. intros s Hs. destruct (Req_dec s 0) as [-> | NZ].
  - rewrite Rabs_R0. replace (f 0 - f 0 - 0 * a) with 0 by ring. rewrite Rabs_R0. lra.
  - specialize (Hd s NZ Hs). rewrite Rplus_0_l in Hd. replace (f s - f 0 - s * a) with (((f s - f 0) / s - a) * s) by (field; auto).
    rewrite Rabs_mult. apply Rmult_le_compat_r; [apply Rabs_pos | lra].
Qed.
Lemma of_small_o f a : small_o f a -> derivable_pt_lim f 0 a.
Proof.
  intros H e He. destruct (H (e / 2) ltac:(lra)) as (d & D & Hd). exists (mkposreal d D). cbn. intros s NZ Hs. rewrite Rplus_0_l. specialize (Hd s Hs).
  replace ((f s - f 0) / s - a) with ((f s - f 0 - s * a) / s) by (field; auto). unfold Rdiv. rewrite Rabs_mult, Rabs_inv.
  pose proof (Rabs_pos_lt s NZ) as P. apply Rle_lt_trans with (e / 2 * Rabs s * / Rabs s); [apply Rmult_le_compat_r; [apply Rlt_le, Rinv_0_lt_compat; auto | auto]|].
  replace (e / 2 * Rabs s * / Rabs s) with (e / 2) by (field; lra). lra.
Qed.
Lemma m4_small_o Q D e : m4_derivative Q 0 D -> 0 < e ->
  nearby (fun s => abs_sum (m4sub (m4sub (Q s) (Q 0)) (m4scal s D)) <= 16 * e * Rabs s).
Proof.
  intros ((H1 & H2 & H3 & H4 & H5 & H6 & H7 & H8 & H9) & (H10 & H11 & H12) & (H13 & H14 & H15) & H16) He.
  apply small_o_of in H1, H2, H3, H4, H5, H6, H7, H8, H9, H10, H11, H12, H13, H14, H15, H16.
  specialize (H1 e He). specialize (H2 e He). specialize (H3 e He). specialize (H4 e He). specialize (H5 e He). specialize (H6 e He). specialize (H7 e He). specialize (H8 e He).
  specialize (H9 e He). specialize (H10 e He). specialize (H11 e He). specialize (H12 e He). specialize (H13 e He). specialize (H14 e He). specialize (H15 e He). specialize (H16 e He).
  pose proof (nearby_and _ _ H1 (nearby_and _ _ H2 (nearby_and _ _ H3 (nearby_and _ _ H4 (nearby_and _ _ H5 (nearby_and _ _ H6 (nearby_and _ _ H7 (nearby_and _ _ H8
    (nearby_and _ _ H9 (nearby_and _ _ H10 (nearby_and _ _ H11 (nearby_and _ _ H12 (nearby_and _ _ H13 (nearby_and _ _ H14 (nearby_and _ _ H15 H16))))))))))))))) as H.
  clear H1 H2 H3 H4 H5 H6 H7 H8 H9 H10 H11 H12 H13 H14 H15 H16. apply (nearby_imp _ _ H). cbv beta.
  intros s (H1 & H2 & H3 & H4 & H5 & H6 & H7 & H8 & H9 & H10 & H11 & H12 & H13 & H14 & H15 & H16). unfold abs_sum. cbn [m4sub m4scal mR mt mb mc m3sub m3scal v3sub v3scal a00 a01 a02 a10 a11 a12 a20 a21 a22 vx vy vz]. lra.
Qed.
Lemma quad_split A v w a : m4tr A = A -> quad4 A (v4add (v4scal a v) w) = a * a * quad4 A v + 2 * a * v4dot w (m4app A v) + quad4 A w.
Proof.
  intros S. destruct A as [[a1 b c d e f g h i] [j k l] [m n o] p]. unfold m4tr, m3tr in S. cbn in S. injection S; intros; subst. clear S. unfold quad4. lin.
Qed.
Lemma quad_split2 A v w a : quad4 A (v4add (v4scal a v) w) = a * a * quad4 A v + a * (bil4 A v w + bil4 A w v) + quad4 A w.
Proof. unfold quad4, bil4. lin. Qed.
Lemma split_unit v u : unit4 v -> unit4 u -> exists a w, u = v4add (v4scal a v) w /\ v4dot w v = 0 /\ a * a + v4dot w w = 1.
Proof.
  unfold unit4. intros V U. exists (v4dot u v), (v4sub u (v4scal (v4dot u v) v)). split; [generalize (v4dot u v); clear; lin|]. split.
  - assert (X : forall a, v4dot (v4sub u (v4scal a v)) v = v4dot u v - a * v4dot v v) by (clear; lin). rewrite X, V. ring.
  - set (a := v4dot u v). transitivity (a * a + (v4dot u u - 2 * a * v4dot u v + a * a * v4dot v v)); [generalize a; clear; intros a; destruct u as [[] ?], v as [[] ?]; lin_unfold; ring|]. rewrite U, V. fold a. ring.
Qed.
Theorem eigenvalue_derivative Q D v l gap lam : m4_derivative Q 0 D -> m4tr (Q 0) = Q 0 -> (forall s, least (quad4 (Q s)) (lam s)) ->
  unit4 v -> m4app (Q 0) v = v4scal l v -> 0 < gap -> (forall u, v4dot u v = 0 -> (l + gap) * v4dot u u <= quad4 (Q 0) u) ->
  derivable_pt_lim lam 0 (quad4 D v).
Proof.
  intros HD S L V E G H. set (g := quad4 D v). set (C := abs_sum D + 1).
  assert (C0 : 0 < C). { unfold C, abs_sum. repeat match goal with |- context [Rabs ?x] => lazymatch goal with H : 0 <= Rabs x |- _ => fail | _ => pose proof (Rabs_pos x) end end. lra. }
  assert (BB : forall u w M N, 0 <= M -> 0 <= N -> v4dot u u <= M * M -> v4dot w w <= N * N -> - (C * (M * N)) <= bil4 D u w <= C * (M * N)).
  { intros u w M N HM HN A B. pose proof (bil_bound D u w M N HM HN A B) as X. assert (0 <= M * N) by nra. unfold C. split; nra. }
  assert (QV : quad4 (Q 0) v = l).
  { unfold quad4. rewrite E. transitivity (l * v4dot v v); [clear; lin | rewrite V; ring]. }
  (* lower bound of the form at 0 *)
  assert (Q0 : forall a w, v4dot w v = 0 -> a * a + v4dot w w = 1 -> l + gap * v4dot w w <= quad4 (Q 0) (v4add (v4scal a v) w)).
  { intros a w W A. rewrite quad_split by auto. rewrite E, QV. replace (v4dot w (v4scal l v)) with (l * v4dot w v) by (clear; lin). rewrite W. specialize (H w W). nra. }
  assert (L0 : lam 0 = l).
  { destruct (L 0) as [(u & U & F) M]. specialize (M v V). destruct (split_unit v u V U) as (a & w & -> & W & A). pose proof (Q0 a w W A) as X. pose proof (v4dot_nonneg w). nra. }
  apply of_small_o. intros e He.
  destruct (m4_small_o Q D (e / 32) HD ltac:(lra)) as (d & D0 & Hd).
  set (d2 := e * gap / (8 * (C * C))). assert (CC : 0 < C * C) by nra. assert (P2 : 0 < d2) by (unfold d2; apply Rdiv_lt_0_compat; nra).
  exists (Rmin d d2). split; [apply Rmin_glb_lt; auto|]. intros s Hs. pose proof (Rmin_l d d2). pose proof (Rmin_r d d2). specialize (Hd s ltac:(lra)).
  set (Rm := m4sub (m4sub (Q s) (Q 0)) (m4scal s D)) in *.
  assert (QS : forall u, quad4 (Q s) u = quad4 (Q 0) u + s * quad4 D u + quad4 Rm u) by (intros u; unfold Rm, quad4; generalize (Q s), (Q 0); clear; lin).
  assert (RB : forall u, unit4 u -> - (e / 2 * Rabs s) <= quad4 Rm u <= e / 2 * Rabs s).
  { intros u U. unfold unit4 in U. pose proof (bil_bound Rm u u 1 1 ltac:(lra) ltac:(lra) ltac:(lra) ltac:(lra)) as B. unfold bil4 in B. unfold quad4. lra. }
  rewrite L0. set (r := Rabs s) in *. assert (R0 : 0 <= r) by apply Rabs_pos.
  assert (UP : lam s <= l + s * g + e / 2 * r).
  { destruct (L s) as [_ M]. specialize (M v V). rewrite QS, QV in M. fold g in M. pose proof (RB v V). lra. }
  assert (LO : l + s * g - e * r <= lam s).
  { destruct (L s) as [(u & U & <-) _]. rewrite QS. pose proof (RB u U) as RBu. destruct (split_unit v u V U) as (a & w & Eu & W & A). pose proof (Q0 a w W A) as X. rewrite <- Eu in X.
    set (o := sqrt (v4dot w w)). assert (O1 : o * o = v4dot w w) by (apply sqrt_sqrt, v4dot_nonneg). assert (O0 : 0 <= o) by apply sqrt_pos. clearbody o. rewrite <- O1 in X, A.
    unfold unit4 in V. assert (OO0 : 0 <= o * o) by nra. assert (AA : 0 <= a * a) by nra. assert (A1 : -1 <= a <= 1) by (split; nra). assert (O2 : o <= 1) by nra.
    assert (Dd : quad4 D u = g + (- (o * o) * g + a * (bil4 D v w + bil4 D w v) + bil4 D w w)).
    { rewrite Eu, quad_split2. fold g. replace (quad4 D w) with (bil4 D w w) by reflexivity. replace (a * a) with (1 - o * o) by lra. ring. }
    pose proof (BB v w 1 o ltac:(lra) O0 ltac:(lra) ltac:(lra)) as B1. pose proof (BB w v o 1 O0 ltac:(lra) ltac:(lra) ltac:(lra)) as B2. pose proof (BB w w o o O0 O0 ltac:(lra) ltac:(lra)) as B3.
    pose proof (BB v v 1 1 ltac:(lra) ltac:(lra) ltac:(lra) ltac:(lra)) as B4. change (bil4 D v v) with g in B4.
    assert (OO : 0 <= o * o <= o) by (split; nra).
    assert (T1 : - (C * o) <= - (o * o) * g <= C * o) by (split; nra).
    assert (T2 : - (2 * (C * o)) <= a * (bil4 D v w + bil4 D w v) <= 2 * (C * o)).
    { set (b := bil4 D v w + bil4 D w v). assert (- (2 * (C * o)) <= b <= 2 * (C * o)) by (unfold b; lra). assert (0 <= C * o) by nra. split; nra. }
    assert (T3 : - (C * o) <= bil4 D w w <= C * o) by (split; nra).
    set (br := - (o * o) * g + a * (bil4 D v w + bil4 D w v) + bil4 D w w) in *. assert (T4 : - (4 * (C * o)) <= br <= 4 * (C * o)) by (unfold br; lra).
    assert (T5 : - (4 * (C * o) * r) <= s * br).
    { assert (X1 : - (Rabs s * Rabs br) <= s * br) by (rewrite <- Rabs_mult; pose proof (Rle_abs (- (s * br))) as Y; rewrite Rabs_Ropp in Y; lra).
      assert (X2 : Rabs br <= 4 * (C * o)) by (apply Rabs_le; lra). fold r in X1. assert (r * Rabs br <= r * (4 * (C * o))) by (apply Rmult_le_compat_l; auto). lra. }
    rewrite Dd. rewrite Rmult_plus_distr_l.
    (* gap o^2 - 4 C o r >= - 4 C^2 r^2 / gap *)
    assert (T6 : gap * (o * o) - 4 * (C * o) * r >= - (e / 2 * r)).
    { assert (T7 : 4 * (C * C) * (r * r) <= e / 2 * r * gap).
      { assert (rd : r <= d2) by lra. assert (r * (8 * (C * C)) <= e * gap).
        { apply Rle_trans with (d2 * (8 * (C * C))); [apply Rmult_le_compat_r; lra|]. unfold d2. right. field. lra. }
        nra. }
      assert (T8 : 0 <= (gap * o - 2 * (C * r)) * (gap * o - 2 * (C * r))) by apply Rle_0_sqr.
      apply Rle_ge. apply (Rmult_le_reg_l gap); auto. nra. }
    lra. }
  apply Rabs_le. split; [lra|]. assert (0 <= e * r) by nra. lra.
Qed.
