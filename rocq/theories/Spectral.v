(** Exact eigendecompositions and singular value decompositions exist: the
    hypotheses [exact_svd] and [exact_eigen] can always be met. *)
Require Import Reals List Arith Lia Lra Psatz Bool.
From Verif Require Import Lin LinFacts SO3 SE3 SpecGeom SO3Ln Registration SpecRegistration ArunProofs.
Import ListNotations.
Local Open Scope R_scope.

(** ** a real root of the characteristic polynomial *)
Lemma cubic_root t m d : {x | x * x * x + t * (x * x) + m * x + d = 0}.
Proof.
  set (p := fun x => x * x * x + t * (x * x) + m * x + d).
  set (M := 1 + Rabs t + Rabs m + Rabs d).
  assert (B : Rabs t <= M - 1 /\ Rabs m <= M - 1 /\ Rabs d <= M - 1 /\ 1 <= M /\ Rabs t + Rabs m + Rabs d = M - 1).
  { unfold M. pose proof (Rabs_pos t). pose proof (Rabs_pos m). pose proof (Rabs_pos d). lra. }
  destruct B as (B1 & B2 & B3 & B4 & B5).
  assert (Ht := Rle_abs t). assert (Ht' := Rle_abs (- t)). rewrite Rabs_Ropp in Ht'.
  assert (Hm := Rle_abs m). assert (Hm' := Rle_abs (- m)). rewrite Rabs_Ropp in Hm'.
  assert (Hd := Rle_abs d). assert (Hd' := Rle_abs (- d)). rewrite Rabs_Ropp in Hd'.
  assert (C : continuity p) by (unfold p; apply derivable_continuous; reg).
  assert (PM : 0 < p M).
  { unfold p. assert (t * (M * M) >= - Rabs t * (M * M)) by nra. assert (m * M >= - Rabs m * M) by nra.
    assert (Rabs m * M <= Rabs m * (M * M)) by (apply Rmult_le_compat_l; [apply Rabs_pos | nra]).
    assert (Rabs d * 1 <= Rabs d * (M * M)) by (apply Rmult_le_compat_l; [apply Rabs_pos | nra]).
    assert (M * M * M - (Rabs t + Rabs m + Rabs d) * (M * M) = M * M) by (rewrite B5; ring). nra. }
  assert (Pm : p (- M) < 0).
  { unfold p. assert (t * (M * M) <= Rabs t * (M * M)) by nra. assert (- m * M <= Rabs m * M) by nra.
    assert (Rabs m * M <= Rabs m * (M * M)) by (apply Rmult_le_compat_l; [apply Rabs_pos | nra]).
    assert (Rabs d * 1 <= Rabs d * (M * M)) by (apply Rmult_le_compat_l; [apply Rabs_pos | nra]).
    assert (M * M * M - (Rabs t + Rabs m + Rabs d) * (M * M) = M * M) by (rewrite B5; ring). nra. }
  destruct (IVT p (- M) M C ltac:(lra) Pm PM) as (x & _ & E). exists x. exact E.
Qed.
Lemma char_root C : {x | m3det (m3sub C (m3scal x m3id)) = 0}.
Proof.
  destruct C as [a b c d e f g h i].
  destruct (cubic_root (- (a + e + i)) (a * e - b * d + a * i - c * g + e * i - f * h) (- m3det (mkM3 a b c d e f g h i))) as [x E].
  exists x. rewrite <- Ropp_0, <- E. lin_unfold. ring.
Qed.
(** ** kernel of a singular matrix *)
Lemma kernel A : m3det A = 0 -> {v | v <> v3zero /\ m3app A v = v3zero}.
Proof.
  destruct A as [a b c d e f g h i]. intros D. lin_unfold_in D.
  destruct (Req_EM_T (v3sqn (mkV3 (e * i - f * h) (f * g - d * i) (d * h - e * g))) 0) as [Z1 | N1].
  2:{ exists (mkV3 (e * i - f * h) (f * g - d * i) (d * h - e * g)). split; [intros E; rewrite E in N1; apply N1; lin|]. lin_unfold. apply v3_eq; lra. }
  destruct (Req_EM_T (v3sqn (mkV3 (c * h - b * i) (a * i - c * g) (b * g - a * h))) 0) as [Z2 | N2].
  2:{ exists (mkV3 (c * h - b * i) (a * i - c * g) (b * g - a * h)). split; [intros E; rewrite E in N2; apply N2; lin|]. lin_unfold. apply v3_eq; lra. }
  destruct (Req_EM_T (v3sqn (mkV3 (b * f - c * e) (c * d - a * f) (a * e - b * d))) 0) as [Z3 | N3].
  2:{ exists (mkV3 (b * f - c * e) (c * d - a * f) (a * e - b * d)). split; [intros E; rewrite E in N3; apply N3; lin|]. lin_unfold. apply v3_eq; lra. }
  apply v3sqn_zero in Z1, Z2, Z3. injection Z1 as P1 P2 P3. injection Z2 as Q1 Q2 Q3. injection Z3 as S1 S2 S3.
  assert (NZ : forall x y z, x <> 0 \/ y <> 0 \/ z <> 0 -> mkV3 x y z <> v3zero).
  { intros x y z H E. injection E as -> -> ->. destruct H as [H | [H | H]]; apply H; reflexivity. }
  (* all minors vanish: a vector orthogonal to a nonzero row *)
  destruct (Req_EM_T a 0) as [A0 | A0]; [|exists (mkV3 (- b) a 0); split; [apply NZ; auto | lin_unfold; apply v3_eq; lra]].
  destruct (Req_EM_T b 0) as [B0 | B0]; [|exists (mkV3 (- b) a 0); split; [apply NZ; left; lra | lin_unfold; apply v3_eq; lra]].
  subst a b. destruct (Req_EM_T c 0) as [C0 | C0].
  2:{ exists (mkV3 1 0 0). split; [apply NZ; left; lra|]. assert (d = 0) by (apply (Rmult_eq_reg_l c); lra). assert (g = 0) by (apply (Rmult_eq_reg_l c); lra).
      subst. lin_unfold. apply v3_eq; ring. }
  subst c. destruct (Req_EM_T d 0) as [D0 | D0]; [|exists (mkV3 (- e) d 0); split; [apply NZ; auto | lin_unfold; apply v3_eq; lra]].
  destruct (Req_EM_T e 0) as [E0 | E0]; [|exists (mkV3 (- e) d 0); split; [apply NZ; left; lra | lin_unfold; apply v3_eq; lra]].
  subst d e. destruct (Req_EM_T f 0) as [F0 | F0].
  2:{ exists (mkV3 1 0 0). split; [apply NZ; left; lra|]. assert (g = 0) by (apply (Rmult_eq_reg_l f); lra). subst. lin_unfold. apply v3_eq; ring. }
  subst f. destruct (Req_EM_T g 0) as [G0 | G0]; [|exists (mkV3 (- h) g 0); split; [apply NZ; auto | lin_unfold; apply v3_eq; lra]].
  subst g. exists (mkV3 1 0 0). split; [apply NZ; left; lra|]. lin_unfold. apply v3_eq; ring.
Qed.
Lemma normalise v : v <> v3zero -> {k | k <> 0 /\ v3sqn (v3scal k v) = 1}.
Proof.
  intros NZ. assert (P : 0 < v3sqn v).
  { pose proof (v3sqn_nonneg v). destruct (Req_EM_T (v3sqn v) 0) as [Z | Z]; [apply v3sqn_zero in Z; contradiction | lra]. }
  pose proof (sqrt_lt_R0 _ P) as Q. pose proof (sqrt_sqrt (v3sqn v) ltac:(lra)) as S.
  exists (/ sqrt (v3sqn v)). split; [apply Rinv_neq_0_compat; lra|].
  transitivity (/ sqrt (v3sqn v) * / sqrt (v3sqn v) * v3sqn v); [generalize (/ sqrt (v3sqn v)); clear; destruct v; lin|].
  rewrite <- S at 3. field. lra.
Qed.
(** ** orthonormal frames *)
Definition frame (u v w : V3) : M3 :=
  mkM3 (vx u) (vx v) (vx w) (vy u) (vy v) (vy w) (vz u) (vz v) (vz w).
Lemma frame_orth u v w : v3sqn u = 1 -> v3sqn v = 1 -> v3sqn w = 1 -> v3dot u v = 0 -> v3dot u w = 0 -> v3dot v w = 0 ->
  orthogonal (frame u v w).
Proof.
  destruct u, v, w. intros A B C D E F. lin_unfold_in A. lin_unfold_in B. lin_unfold_in C. lin_unfold_in D. lin_unfold_in E. lin_unfold_in F.
  unfold orthogonal, frame. lin_unfold. apply m3_eq; lra.
Qed.
Lemma cross_orth u v : v3sqn u = 1 -> v3sqn v = 1 -> v3dot u v = 0 -> orthogonal (frame u v (v3cross u v)).
Proof.
  intros A B C. apply frame_orth; auto.
  - transitivity (v3sqn u * v3sqn v - v3dot u v * v3dot u v); [destruct u, v; lin | rewrite A, B, C; ring].
  - destruct u, v; lin.
  - destruct u, v; lin.
Qed.
Lemma perpendicular u : v3sqn u = 1 -> {v | v3sqn v = 1 /\ v3dot u v = 0}.
Proof.
  intros A. assert (E : {v | v <> v3zero /\ v3dot u v = 0}).
  { destruct u as [a b c]. destruct (Req_EM_T a 0) as [Z | N].
    - subst. exists (mkV3 1 0 0). split; [intros E; injection E; lra | lin].
    - exists (mkV3 (- b) a 0). split; [intros E; injection E; intros; lra | lin]. }
  destruct E as (v & NZ & D). destruct (normalise v NZ) as (k & _ & K). exists (v3scal k v). split; auto.
  transitivity (k * v3dot u v); [destruct u, v; lin | rewrite D; ring].
Qed.
Lemma complete u : v3sqn u = 1 -> {v : V3 & {w | orthogonal (frame u v w)}}.
Proof. intros A. destruct (perpendicular u A) as (v & B & C). exists v, (v3cross u v). apply cross_orth; auto. Qed.
(** ** 2x2 block *)
Lemma jacobi2 p q r : {c : R & {s | c * c + s * s = 1 /\ c * s * (p - r) + (c * c - s * s) * q = 0}}.
Proof.
  destruct (Req_EM_T q 0) as [Z | N]; [exists 1, 0; subst; split; ring|].
  set (tau := (r - p) / (2 * q)). set (t := - tau + sqrt (tau * tau + 1)).
  assert (T : t * t + 2 * tau * t - 1 = 0).
  { unfold t. pose proof (sqrt_sqrt (tau * tau + 1) ltac:(nra)) as S. nra. }
  assert (P : 0 < 1 + t * t) by nra. pose proof (sqrt_lt_R0 _ P) as Q. pose proof (sqrt_sqrt (1 + t * t) ltac:(lra)) as S.
  set (n := sqrt (1 + t * t)) in *. exists (/ n), (t / n). split.
  - transitivity ((1 + t * t) / (n * n)); [field; lra | rewrite S; field; lra].
  - assert (E : r - p = 2 * q * tau) by (unfold tau; field; auto).
    transitivity ((t * (p - r) + (1 - t * t) * q) / (n * n)); [field; lra|].
    replace (t * (p - r) + (1 - t * t) * q) with 0; [unfold Rdiv; ring|].
    replace (p - r) with (- (2 * q * tau)) by lra. transitivity (- q * (t * t + 2 * tau * t - 1)); [rewrite T; ring | ring].
Qed.
Lemma conj_back V C D : orthogonal V -> m3mul (m3mul (m3tr V) C) V = D -> C = m3mul (m3mul V D) (m3tr V).
Proof.
  intros O <-. apply orth_tr in O. unfold orthogonal in O. rewrite m3tr_tr in O.
  rewrite <- !m3mul_assoc, O, m3mul_id_l, m3mul_assoc, O, m3mul_id_r. reflexivity.
Qed.
Lemma diagonalise C : sym3 C -> {V : M3 & {D | orthogonal V /\ C = m3mul (m3mul V (diag3 D)) (m3tr V)}}.
Proof.
  intros S. destruct (char_root C) as [l E]. destruct (kernel _ E) as (v0 & NZ & K). destruct (normalise v0 NZ) as (k & K0 & U).
  set (v := v3scal k v0) in *.
  assert (EV : m3app C v = v3scal l v).
  { assert (EV0 : m3app C v0 = v3scal l v0).
    { revert K. clear. destruct C, v0. intros K. lin_unfold_in K. injection K as A B D. lin_unfold. apply v3_eq; lra. }
    unfold v. transitivity (v3scal k (m3app C v0)); [clear; destruct C, v0; lin | rewrite EV0; clear; destruct v0; lin]. }
  destruct (complete v U) as (u & w & O). set (Q := frame v u w) in *. set (B := m3mul (m3mul (m3tr Q) C) Q).
  assert (SB : m3tr B = B) by (unfold B; rewrite !m3tr_mul, m3tr_tr, S, m3mul_assoc; reflexivity).
  assert (B0 : a00 B = l /\ a10 B = 0 /\ a20 B = 0).
  { assert (F : mkV3 (a00 B) (a10 B) (a20 B) = m3app (m3tr Q) (m3app C v)).
    { unfold B, Q, frame. clear. generalize v. intros v'. destruct C, v', u, w. lin. }
    rewrite EV in F. assert (F2 : m3app (m3tr Q) (v3scal l v) = v3scal l (m3app (m3tr Q) v)) by (generalize (m3tr Q) v; clear; lin).
    rewrite F2 in F. pose proof (orth_cols _ O) as (O1 & O2 & O3 & O4 & O5 & O6). unfold Q, frame in *. cbn [a00 a01 a02 a10 a11 a12 a20 a21 a22] in *.
    set (vv := v) in *. clearbody vv. destruct vv as [v1 v2 v3], u as [u1 u2 u3], w as [w1 w2 w3]. cbn [vx vy vz] in *.
    revert F. generalize (a00 B), (a10 B), (a20 B). intros x y z F. lin_unfold_in F. injection F as F1 F3 F4.
    replace (l * (v1 * v1 + v2 * v2 + v3 * v3)) with l in F1 by (rewrite O1; ring).
    replace (l * (u1 * v1 + u2 * v2 + u3 * v3)) with 0 in F3 by (transitivity (l * (v1 * u1 + v2 * u2 + v3 * u3)); [rewrite O4; ring | ring]).
    replace (l * (w1 * v1 + w2 * v2 + w3 * v3)) with 0 in F4 by (transitivity (l * (v1 * w1 + v2 * w2 + v3 * w3)); [rewrite O5; ring | ring]).
    auto. }
  destruct B0 as (B1 & B2 & B3).
  assert (EC : C = m3mul (m3mul Q B) (m3tr Q)) by (apply conj_back; auto). clearbody B.
  destruct B as [b00 b01 b02 b10 b11 b12 b20 b21 b22]. cbn in B1, B2, B3. unfold m3tr in SB. cbn in SB.
  assert (b01 = b10 /\ b02 = b20 /\ b12 = b21) as (S1 & S2 & S3) by (injection SB; intros; auto). subst b00 b10 b20 b01 b02 b12. clear SB.
  destruct (jacobi2 b11 b21 b22) as (c & s & CS & OD).
  set (G := mkM3 1 0 0 0 c s 0 (- s) c).
  assert (OG : orthogonal G) by (unfold orthogonal, G; lin_unfold; apply m3_eq; lra).
  exists (m3mul Q G), (mkV3 l (c * c * b11 - 2 * (c * s * b21) + s * s * b22) (s * s * b11 + 2 * (c * s * b21) + c * c * b22)).
  split; [apply orth_mul; auto|]. rewrite EC, m3tr_mul.
  assert (EG : mkM3 l 0 0 0 b11 b21 0 b21 b22 = m3mul (m3mul G (diag3 (mkV3 l (c * c * b11 - 2 * (c * s * b21) + s * s * b22) (s * s * b11 + 2 * (c * s * b21) + c * c * b22)))) (m3tr G)).
  { apply conj_back; auto. unfold G, diag3. lin_unfold. apply m3_eq; lra. }
  rewrite EG at 1. rewrite !m3mul_assoc. reflexivity.
Qed.
(** ** sorting *)
Definition perm01 : M3 := mkM3 0 1 0 1 0 0 0 0 1.
Definition perm12 : M3 := mkM3 1 0 0 0 0 1 0 1 0.
Lemma swap01 C V a b c : orthogonal V /\ C = m3mul (m3mul V (diag3 (mkV3 a b c))) (m3tr V) ->
  {V' | orthogonal V' /\ C = m3mul (m3mul V' (diag3 (mkV3 b a c))) (m3tr V')}.
Proof.
  intros [O E]. exists (m3mul V perm01). split; [apply orth_mul; auto; unfold orthogonal, perm01; lin|]. rewrite E. unfold perm01, diag3. clear. destruct V. lin.
Qed.
Lemma swap12 C V a b c : orthogonal V /\ C = m3mul (m3mul V (diag3 (mkV3 a b c))) (m3tr V) ->
  {V' | orthogonal V' /\ C = m3mul (m3mul V' (diag3 (mkV3 a c b))) (m3tr V')}.
Proof.
  intros [O E]. exists (m3mul V perm12). split; [apply orth_mul; auto; unfold orthogonal, perm12; lin|]. rewrite E. unfold perm12, diag3. clear. destruct V. lin.
Qed.
Lemma eigen_exists C : sym3 C -> {e | eigen_of C e}.
Proof.
  intros S. destruct (diagonalise C S) as (V & [a b c] & H).
  assert (G : forall V x y z, orthogonal V /\ C = m3mul (m3mul V (diag3 (mkV3 x y z))) (m3tr V) -> x <= y -> y <= z -> {e | eigen_of C e}).
  { intros V' x y z [O E] L1 L2. exists (mkEigen (mkV3 x y z) V'). repeat split; auto. }
  destruct (Rle_dec a b) as [L1 | L1], (Rle_dec b c) as [L2 | L2], (Rle_dec a c) as [L3 | L3]; try (exfalso; lra).
  - apply (G V a b c); auto.
  - destruct (swap12 _ _ _ _ _ H) as (V1 & H1). apply (G V1 a c b); auto; lra.
  - destruct (swap12 _ _ _ _ _ H) as (V1 & H1). destruct (swap01 _ _ _ _ _ H1) as (V2 & H2). apply (G V2 c a b); auto; lra.
  - destruct (swap01 _ _ _ _ _ H) as (V1 & H1). apply (G V1 b a c); auto; lra.
  - destruct (swap01 _ _ _ _ _ H) as (V1 & H1). destruct (swap12 _ _ _ _ _ H1) as (V2 & H2). apply (G V2 b c a); auto; lra.
  - destruct (swap01 _ _ _ _ _ H) as (V1 & H1). destruct (swap12 _ _ _ _ _ H1) as (V2 & H2). destruct (swap01 _ _ _ _ _ H2) as (V3 & H3).
    apply (G V3 c b a); auto; lra.
Qed.
(** ** singular value decomposition *)
Lemma svd_exists H : {s | svd_of H s}.
Proof.
  destruct (eigen_exists (m3mul (m3tr H) H)) as ([[l2 l1 l0] V0] & O0 & E0 & L1 & L2); [unfold sym3; rewrite m3tr_mul, m3tr_tr; reflexivity|].
  cbn [eig_vals eig_vecs vx vy vz] in *.
  destruct (swap01 _ _ _ _ _ (conj O0 E0)) as (Va & Ha). destruct (swap12 _ _ _ _ _ Ha) as (Vb & Hb). destruct (swap01 _ _ _ _ _ Hb) as (V & O & E).
  clear V0 O0 E0 Va Ha Vb Hb.
  set (B := m3mul H V).
  assert (BB : m3mul (m3tr B) B = diag3 (mkV3 l0 l1 l2)).
  { unfold B. rewrite m3tr_mul, m3mul_assoc, <- (m3mul_assoc (m3tr H)), E. unfold orthogonal in O.
    rewrite <- !m3mul_assoc, O, m3mul_id_l, m3mul_assoc, O, m3mul_id_r. reflexivity. }
  assert (HB : H = m3mul B (m3tr V)).
  { unfold B. rewrite m3mul_assoc. apply orth_tr in O. unfold orthogonal in O. rewrite m3tr_tr in O. rewrite O, m3mul_id_r. reflexivity. }
  clearbody B.
  set (b0 := mkV3 (a00 B) (a10 B) (a20 B)). set (b1 := mkV3 (a01 B) (a11 B) (a21 B)). set (b2 := mkV3 (a02 B) (a12 B) (a22 B)).
  assert (BF : B = frame b0 b1 b2) by (destruct B; reflexivity).
  assert (N : v3sqn b0 = l0 /\ v3sqn b1 = l1 /\ v3sqn b2 = l2 /\ v3dot b0 b1 = 0 /\ v3dot b0 b2 = 0 /\ v3dot b1 b2 = 0).
  { unfold b0, b1, b2. destruct B as [a b c d e f g h i]. unfold diag3 in BB. lin_unfold_in BB. injection BB as F1 F2 F3 F4 F5 F6 F7 F8 F9.
    lin_unfold. repeat split; lra. }
  destruct N as (N0 & N1 & N2 & P01 & P02 & P12). clearbody b0 b1 b2. clear BB.
  pose proof (v3sqn_nonneg b2) as Pos2.
  assert (Key : {U | orthogonal U /\ B = m3mul U (diag3 (mkV3 (sqrt l0) (sqrt l1) (sqrt l2)))}).
  { assert (SQ : forall l, 0 < l -> 0 < sqrt l /\ sqrt l * sqrt l = l) by (intros l Hl; split; [apply sqrt_lt_R0; auto | apply sqrt_sqrt; lra]).
    assert (UN : forall b l, v3sqn b = l -> 0 < l -> v3sqn (v3scal (/ sqrt l) b) = 1 /\ v3scal (sqrt l) (v3scal (/ sqrt l) b) = b).
    { intros b l E1 Hl. destruct (SQ l Hl) as [S1 S2]. split.
      - transitivity (/ sqrt l * / sqrt l * v3sqn b); [generalize (/ sqrt l); destruct b; clear; lin|]. rewrite E1. rewrite <- S2 at 3. field. lra.
      - transitivity (v3scal (sqrt l * / sqrt l) b); [generalize (/ sqrt l); destruct b; clear; lin|]. rewrite Rinv_r by lra. destruct b; lin. }
    assert (DT : forall b c k j, v3dot b c = 0 -> v3dot (v3scal k b) (v3scal j c) = 0).
    { intros b c k j E1. transitivity (k * j * v3dot b c); [destruct b, c; lin | rewrite E1; ring]. }
    assert (FR : forall u v w x y z, m3mul (frame u v w) (diag3 (mkV3 x y z)) = frame (v3scal x u) (v3scal y v) (v3scal z w)) by (intros [] [] [] x y z; unfold frame, diag3; lin).
    assert (ZV : forall b, v3sqn b = 0 -> b = v3zero) by (intros; apply v3sqn_zero; auto).
    assert (SZ : forall u, v3scal 0 u = v3zero) by (intros []; lin).
    destruct (Rlt_dec 0 l2) as [Q2 | Q2].
    - destruct (UN b0 l0 N0 ltac:(lra)) as [U0 W0]. destruct (UN b1 l1 N1 ltac:(lra)) as [U1 W1]. destruct (UN b2 l2 N2 ltac:(lra)) as [U2 W2].
      exists (frame (v3scal (/ sqrt l0) b0) (v3scal (/ sqrt l1) b1) (v3scal (/ sqrt l2) b2)). split.
      + apply frame_orth; auto.
      + rewrite FR, W0, W1, W2. exact BF.
    - assert (Z2 : l2 = 0) by lra. rewrite Z2 in *. rewrite sqrt_0. assert (Zb : b2 = v3zero) by (apply ZV; lra). rewrite Zb in BF.
      destruct (Rlt_dec 0 l1) as [Q1 | Q1].
      + destruct (UN b0 l0 N0 ltac:(lra)) as [U0 W0]. destruct (UN b1 l1 N1 ltac:(lra)) as [U1 W1].
        exists (frame (v3scal (/ sqrt l0) b0) (v3scal (/ sqrt l1) b1) (v3cross (v3scal (/ sqrt l0) b0) (v3scal (/ sqrt l1) b1))). split.
        * apply cross_orth; auto.
        * rewrite FR, W0, W1, SZ. exact BF.
      + assert (l1 = 0) by lra. rewrite H0 in *. rewrite sqrt_0. assert (b1 = v3zero) by (apply ZV; lra). rewrite H1 in BF.
        destruct (Rlt_dec 0 l0) as [Q0 | Q0].
        * destruct (UN b0 l0 N0 ltac:(lra)) as [U0 W0]. destruct (complete _ U0) as (v & w & OC).
          exists (frame (v3scal (/ sqrt l0) b0) v w). split; auto. rewrite FR, W0, !SZ. exact BF.
        * assert (l0 = 0) by lra. rewrite H2 in *. rewrite sqrt_0. assert (b0 = v3zero) by (apply ZV; lra). rewrite H3 in BF.
          exists m3id. split; [unfold orthogonal; lin|]. rewrite BF. unfold frame, diag3. lin. }
  destruct Key as (U & OU & EU). exists (mkSvd U (mkV3 (sqrt l0) (sqrt l1) (sqrt l2)) V). unfold svd_of. cbn [svd_U svd_V svd_D vx vy vz].
  split; [auto|]. split; [auto|]. split; [rewrite HB, EU; reflexivity|].
  repeat split; apply Rle_ge; try apply sqrt_le_1_alt; try apply sqrt_pos; lra.
Qed.
Lemma svd_all : exists f, forall H, svd_of H (f H).
Proof. exists (fun H => proj1_sig (svd_exists H)). intros H. destruct (svd_exists H). auto. Qed.
Lemma exact_svd_exists X Y : exists f, exact_svd f X Y.
Proof. destruct (svd_exists (gram (centred X) (centred Y))) as [s H]. exists (fun _ => s). exact H. Qed.
Lemma gram_sym X : sym3 (gram X X).
Proof.
  unfold sym3, gram. induction X as [|x X IH]; [reflexivity|]. cbn [combine map fst snd]. unfold m3sum; cbn [fold_right].
  change (fold_right m3add m3zero) with m3sum. rewrite m3tr_add, IH. f_equal. destruct x. lin.
Qed.
Lemma exact_eigen_exists X : exists f, exact_eigen f X.
Proof. destruct (eigen_exists _ (gram_sym (centred X))) as [e H]. exists (fun _ => e). exact H. Qed.
