(** Algebraic facts and tactics about the small matrices of Lin.v. *)
Require Import Reals Lra Psatz.
From Verif Require Import Lin.
Local Open Scope R_scope.

Lemma v3_eq : forall a b c a' b' c', a = a' -> b = b' -> c = c' -> mkV3 a b c = mkV3 a' b' c'.
Proof. intros; subst; reflexivity. Qed.
Lemma v4_eq : forall a b a' b', a = a' -> b = b' -> mkV4 a b = mkV4 a' b'.
Proof. intros; subst; reflexivity. Qed.
Lemma v6_eq : forall a b a' b', a = a' -> b = b' -> mkV6 a b = mkV6 a' b'.
Proof. intros; subst; reflexivity. Qed.
Lemma m3_eq : forall a b c d e f g h i a' b' c' d' e' f' g' h' i',
  a = a' -> b = b' -> c = c' -> d = d' -> e = e' -> f = f' -> g = g' -> h = h' -> i = i' ->
  mkM3 a b c d e f g h i = mkM3 a' b' c' d' e' f' g' h' i'.
Proof. intros; subst; reflexivity. Qed.
Lemma m4_eq : forall a b c d a' b' c' d', a = a' -> b = b' -> c = c' -> d = d' ->
  mkM4 a b c d = mkM4 a' b' c' d'.
Proof. intros; subst; reflexivity. Qed.
Lemma m6_eq : forall a b c d a' b' c' d', a = a' -> b = b' -> c = c' -> d = d' ->
  mkM6 a b c d = mkM6 a' b' c' d'.
Proof. intros; subst; reflexivity. Qed.

Ltac lin_destruct :=
  repeat match goal with
  | x : V6 |- _ => destruct x
  | x : M6 |- _ => destruct x
  | x : V4 |- _ => destruct x
  | x : M4 |- _ => destruct x
  | x : M3 |- _ => destruct x
  | x : V3 |- _ => destruct x
  end.
Ltac lin_unfold :=
  cbv [v3zero v3add v3sub v3opp v3scal v3dot v3sqn v3cross m3id m3zero m3add m3sub m3scal
       m3opp m3mul m3tr m3trace m3det m3app m3appT m3outer m3frob2
       v4zero v4add v4sub v4scal v4dot m4id m4zero m4mul m4add m4sub m4scal m4tr m4app
       v6zero v6add v6sub v6opp v6scal v6dot m6id m6zero m6add m6scal m6mul m6tr m6app
       vx vy vz a00 a01 a02 a10 a11 a12 a20 a21 a22
       mR mt mb mc v4h v4l v6w v6v mTL mTR mBL mBR].
Ltac lin_unfold_in H :=
  cbv [v3zero v3add v3sub v3opp v3scal v3dot v3sqn v3cross m3id m3zero m3add m3sub m3scal
       m3opp m3mul m3tr m3trace m3det m3app m3appT m3outer m3frob2
       v4zero v4add v4sub v4scal v4dot m4id m4zero m4mul m4add m4sub m4scal m4tr m4app
       v6zero v6add v6sub v6opp v6scal v6dot m6id m6zero m6add m6scal m6mul m6tr m6app
       vx vy vz a00 a01 a02 a10 a11 a12 a20 a21 a22
       mR mt mb mc v4h v4l v6w v6v mTL mTR mBL mBR] in H.
Ltac lin_split :=
  repeat first [ apply m6_eq | apply v6_eq | apply m4_eq | apply v4_eq | apply m3_eq | apply v3_eq ].
Ltac lin := intros; lin_destruct; lin_unfold; lin_split; ring.

(** ** 3-vectors and 3x3 *)
Lemma m3mul_assoc A B C : m3mul (m3mul A B) C = m3mul A (m3mul B C).
Proof. lin. Qed.
Lemma m3mul_id_l A : m3mul m3id A = A. Proof. lin. Qed.
Lemma m3mul_id_r A : m3mul A m3id = A. Proof. lin. Qed.
Lemma m3tr_mul A B : m3tr (m3mul A B) = m3mul (m3tr B) (m3tr A). Proof. lin. Qed.
Lemma m3tr_tr A : m3tr (m3tr A) = A. Proof. lin. Qed.
Lemma m3tr_add A B : m3tr (m3add A B) = m3add (m3tr A) (m3tr B). Proof. lin. Qed.
Lemma m3tr_id : m3tr m3id = m3id. Proof. lin. Qed.
Lemma m3det_mul A B : m3det (m3mul A B) = m3det A * m3det B. Proof. lin. Qed.
Lemma m3det_tr A : m3det (m3tr A) = m3det A. Proof. lin. Qed.
Lemma m3det_id : m3det m3id = 1. Proof. lin. Qed.
Lemma m3trace_mul_comm A B : m3trace (m3mul A B) = m3trace (m3mul B A). Proof. lin. Qed.
Lemma m3trace_tr A : m3trace (m3tr A) = m3trace A. Proof. lin. Qed.
Lemma m3app_mul A B v : m3app (m3mul A B) v = m3app A (m3app B v). Proof. lin. Qed.
Lemma m3app_id v : m3app m3id v = v. Proof. lin. Qed.
Lemma m3app_add A u v : m3app A (v3add u v) = v3add (m3app A u) (m3app A v). Proof. lin. Qed.
Lemma m3app_sub A u v : m3app A (v3sub u v) = v3sub (m3app A u) (m3app A v). Proof. lin. Qed.
Lemma v3dot_app A u v : v3dot (m3app A u) v = v3dot u (m3app (m3tr A) v). Proof. lin. Qed.
Lemma v3dot_comm u v : v3dot u v = v3dot v u. Proof. lin. Qed.
Lemma v3sqn_nonneg u : 0 <= v3sqn u.
Proof. destruct u; unfold v3sqn, v3dot; simpl; nra. Qed.
Lemma v3norm_nonneg u : 0 <= v3norm u. Proof. apply sqrt_pos. Qed.
Lemma v3norm_sq u : v3norm u * v3norm u = v3sqn u.
Proof. apply sqrt_sqrt, v3sqn_nonneg. Qed.
Lemma v3sqn_zero u : v3sqn u = 0 -> u = v3zero.
Proof. destruct u; unfold v3sqn, v3dot, v3zero; simpl; intros; f_equal; nra. Qed.
Lemma v3norm_zero u : v3norm u = 0 -> u = v3zero.
Proof. intros H; apply v3sqn_zero; rewrite <- v3norm_sq, H; ring. Qed.
Lemma v3norm_zero' : v3norm v3zero = 0.
Proof. unfold v3norm, v3sqn, v3dot, v3zero; simpl.
  replace (0*0+0*0+0*0) with 0 by ring; apply sqrt_0. Qed.
Lemma v3norm_opp u : v3norm (v3opp u) = v3norm u.
Proof. unfold v3norm; f_equal; lin. Qed.
Lemma v3norm_scal k u : v3norm (v3scal k u) = Rabs k * v3norm u.
Proof.
  unfold v3norm.
  replace (v3sqn (v3scal k u)) with (k * k * v3sqn u) by lin.
  rewrite sqrt_mult; [| nra | apply v3sqn_nonneg].
  f_equal; fold (Rsqr k); apply sqrt_Rsqr_abs.
Qed.

(** Adjugate (transposed cofactors) *)
Definition m3adj (A : M3) : M3 :=
  mkM3 (a11 A * a22 A - a12 A * a21 A) (a02 A * a21 A - a01 A * a22 A) (a01 A * a12 A - a02 A * a11 A)
       (a12 A * a20 A - a10 A * a22 A) (a00 A * a22 A - a02 A * a20 A) (a02 A * a10 A - a00 A * a12 A)
       (a10 A * a21 A - a11 A * a20 A) (a01 A * a20 A - a00 A * a21 A) (a00 A * a11 A - a01 A * a10 A).
Ltac lina := intros; lin_destruct; cbv [m3adj]; lin_unfold; lin_split; ring.
Lemma m3adj_l A : m3mul (m3adj A) A = m3scal (m3det A) m3id. Proof. lina. Qed.
Lemma m3adj_r A : m3mul A (m3adj A) = m3scal (m3det A) m3id. Proof. lina. Qed.
Lemma m3scal_1 A : m3scal 1 A = A. Proof. lin. Qed.

(** Left inverse of a 3x3 matrix is a right inverse *)
Lemma m3_linv_rinv A B : m3mul B A = m3id -> m3mul A B = m3id.
Proof.
  intros H.
  assert (Hd : m3det B * m3det A = 1) by (rewrite <- m3det_mul, H; apply m3det_id).
  assert (Hd0 : m3det A <> 0) by (intros E; rewrite E in Hd; lra).
  assert (HB : B = m3scal (/ m3det A) (m3adj A)).
  { assert (E : m3mul (m3mul B A) (m3adj A) = m3adj A) by (rewrite H; apply m3mul_id_l).
    rewrite m3mul_assoc, m3adj_r in E. rewrite <- E.
    assert (E2 : m3scal (/ m3det A) (m3mul B (m3scal (m3det A) m3id))
                 = m3scal (/ m3det A * m3det A) B) by lin.
    rewrite E2, Rinv_l by assumption. symmetry; apply m3scal_1. }
  rewrite HB.
  assert (E : m3mul A (m3scal (/ m3det A) (m3adj A)) = m3scal (/ m3det A) (m3mul A (m3adj A))) by lin.
  rewrite E, m3adj_r.
  assert (E2 : m3scal (/ m3det A) (m3scal (m3det A) m3id) = m3scal (/ m3det A * m3det A) m3id) by lin.
  rewrite E2, Rinv_l by assumption. apply m3scal_1.
Qed.

Lemma m4mul_assoc A B C : m4mul (m4mul A B) C = m4mul A (m4mul B C). Proof. lin. Qed.
Lemma m4mul_id_l A : m4mul m4id A = A. Proof. lin. Qed.
Lemma m4mul_id_r A : m4mul A m4id = A. Proof. lin. Qed.
Lemma m3mul_add_l A B C : m3mul (m3add A B) C = m3add (m3mul A C) (m3mul B C). Proof. lin. Qed.
Lemma m3mul_add_r A B C : m3mul A (m3add B C) = m3add (m3mul A B) (m3mul A C). Proof. lin. Qed.
Lemma m3add_4 A B C D : m3add (m3add A B) (m3add C D) = m3add (m3add A C) (m3add B D). Proof. lin. Qed.
Lemma m6mul_assoc A B C : m6mul (m6mul A B) C = m6mul A (m6mul B C).
Proof.
  unfold m6mul; cbn [mTL mTR mBL mBR].
  apply m6_eq; rewrite !m3mul_add_l, !m3mul_add_r, !m3mul_assoc; apply m3add_4.
Qed.
Lemma m6mul_id_l A : m6mul m6id A = A. Proof. lin. Qed.
Lemma m6mul_id_r A : m6mul A m6id = A. Proof. lin. Qed.
Lemma m6tr_mul A B : m6tr (m6mul A B) = m6mul (m6tr B) (m6tr A). Proof. lin. Qed.
Lemma m6tr_tr A : m6tr (m6tr A) = A. Proof. lin. Qed.
Lemma m6app_mul A B v : m6app (m6mul A B) v = m6app A (m6app B v). Proof. lin. Qed.
Lemma v6dot_app A u v : v6dot (m6app A u) v = v6dot u (m6app (m6tr A) v). Proof. lin. Qed.
Lemma m4app_mul A B v : m4app (m4mul A B) v = m4app A (m4app B v). Proof. lin. Qed.
