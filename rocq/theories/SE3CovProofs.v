(** Proofs for SE3cov.cpp. *)
Require Import Reals Lra Psatz List.
From Verif Require Import Lin LinFacts SO3 SE3 SpecGeom SO3Exp SE3Alg SE3Cov.
Import ListNotations.
Local Open Scope R_scope.

Ltac cov := intros; lin_destruct; unfold curly_wedge, hat6, hat3; lin_unfold; lin_split; ring.
Lemma curly_bracket x y :
  hat6 (m6app (curly_wedge x) y) = m4sub (m4mul (hat6 x) (hat6 y)) (m4mul (hat6 y) (hat6 x)).
Proof. cov. Qed.
Lemma curly_self x : m6app (curly_wedge x) x = v6zero.
Proof. cov. Qed.
Lemma curly_antisym x y : m6app (curly_wedge x) y = v6opp (m6app (curly_wedge y) x).
Proof. cov. Qed.
Lemma curly_jacobi x y z :
  v6add (v6add (m6app (curly_wedge x) (m6app (curly_wedge y) z)) (m6app (curly_wedge y) (m6app (curly_wedge z) x)))
        (m6app (curly_wedge z) (m6app (curly_wedge x) y)) = v6zero.
Proof. cov. Qed.
Lemma curly_linear a b x y z : m6app (curly_wedge (v6add (v6scal a x) (v6scal b y))) z =
  v6add (v6scal a (m6app (curly_wedge x) z)) (v6scal b (m6app (curly_wedge y) z)).
Proof. cov. Qed.
(** Ad(T) is a Lie algebra automorphism *)
Lemma curly_adj T x y : rigid T ->
  m6app (se3_adj T) (m6app (curly_wedge x) y) = m6app (curly_wedge (m6app (se3_adj T) x)) (m6app (se3_adj T) y).
Proof.
  intros HT. rewrite <- (vee6_hat6 (m6app (se3_adj T) (m6app (curly_wedge x) y))).
  rewrite <- (vee6_hat6 (m6app (curly_wedge (m6app (se3_adj T) x)) (m6app (se3_adj T) y))).
  f_equal. rewrite curly_bracket, !adj_conj, curly_bracket by auto.
  pose proof (rigid_linv T HT) as L.
  set (X := hat6 x). set (Y := hat6 y). set (Ti := se3_inv T) in *.
  assert (D : m4mul (m4mul T (m4sub (m4mul X Y) (m4mul Y X))) Ti =
     m4sub (m4mul (m4mul T (m4mul X Y)) Ti) (m4mul (m4mul T (m4mul Y X)) Ti)).
  { clearbody X Y Ti. clear. 
    assert (S1 : forall P Q N, m4mul P (m4sub Q N) = m4sub (m4mul P Q) (m4mul P N)) by lin.
    assert (S2 : forall P Q N, m4mul (m4sub P Q) N = m4sub (m4mul P N) (m4mul Q N)) by lin.
    rewrite S1, S2. reflexivity. }
  assert (M : forall P Q, m4mul (m4mul (m4mul T P) Ti) (m4mul (m4mul T Q) Ti) = m4mul (m4mul T (m4mul P Q)) Ti).
  { intros. rewrite !m4mul_assoc. do 2 f_equal. rewrite <- (m4mul_assoc Ti T), L, m4mul_id_l. reflexivity. }
  rewrite D, !M. reflexivity.
Qed.

(** ** second order *)
Lemma m6app_add_m A B v : m6app (m6add A B) v = v6add (m6app A v) (m6app B v). Proof. lin. Qed.
Lemma v6dot_add_r u a b : v6dot u (v6add a b) = v6dot u a + v6dot u b. Proof. lin. Qed.
Lemma v6dot_comm u v : v6dot u v = v6dot v u. Proof. lin. Qed.
Lemma m6tr_add A B : m6tr (m6add A B) = m6add (m6tr A) (m6tr B). Proof. lin. Qed.
Lemma m6mul_add_l A B C : m6mul (m6add A B) C = m6add (m6mul A C) (m6mul B C). Proof. lin. Qed.
Lemma m6mul_add_r A B C : m6mul A (m6add B C) = m6add (m6mul A B) (m6mul A C). Proof. lin. Qed.
Lemma m6add_assoc A B C : m6add (m6add A B) C = m6add A (m6add B C). Proof. lin. Qed.

Lemma cov_congr S J : covariance6 S -> covariance6 (m6mul (m6mul J S) (m6tr J)).
Proof.
  intros [HS HP]. split.
  - unfold sym6 in *. rewrite !m6tr_mul, m6tr_tr, HS, m6mul_assoc. reflexivity.
  - intros v. rewrite !m6app_mul. rewrite v6dot_comm, v6dot_app, v6dot_comm. apply HP.
Qed.
Lemma cov_add S S' : covariance6 S -> covariance6 S' -> covariance6 (m6add S S').
Proof.
  intros [A B] [C D]. split; [unfold sym6 in *; rewrite m6tr_add, A, C; reflexivity|].
  intros v. rewrite m6app_add_m, v6dot_add_r. specialize (B v). specialize (D v). lra.
Qed.
Lemma compound2_cov_psd a b : covariance6 (sc_cov a) -> covariance6 (sc_cov b) ->
  covariance6 (sc_cov (compound2_cov a b)).
Proof. intros HA HB. unfold compound2_cov, compound2; cbn [sc_cov]. apply cov_add; auto. apply cov_congr; auto. Qed.
Lemma compound2_assoc a b c : rigid (sc_T a) -> rigid (sc_T b) ->
  compound2_cov (compound2_cov a b) c = compound2_cov a (compound2_cov b c).
Proof.
  intros HA HB. unfold compound2_cov, compound2; cbn [sc_T sc_cov]. unfold se3_mul. f_equal.
  - apply m4mul_assoc.
  - rewrite adj_mul by auto. rewrite m6add_assoc. f_equal. rewrite m6mul_add_r, m6mul_add_l. f_equal.
    rewrite m6tr_mul, !m6mul_assoc. reflexivity.
Qed.
(** mean: E[Ad xi] .. the marginal interpretation: quadratic form of the result *)
Lemma compound2_quadratic a b v : v6dot v (m6app (sc_cov (compound2_cov a b)) v) =
  v6dot v (m6app (sc_cov a) v) +
  v6dot (m6app (m6tr (se3_adj (sc_T a))) v) (m6app (sc_cov b) (m6app (m6tr (se3_adj (sc_T a))) v)).
Proof.
  unfold compound2_cov, compound2; cbn [sc_cov]. rewrite m6app_add_m, v6dot_add_r. f_equal.
  rewrite !m6app_mul. rewrite v6dot_comm, v6dot_app, v6dot_comm. reflexivity.
Qed.

(** any bracketing of a chain *)
Inductive ctree : Type := CLeaf (x : SE3Cov) | CNode (l r : ctree).
Fixpoint cleaves (t : ctree) : list SE3Cov :=
  match t with CLeaf x => [x] | CNode l r => cleaves l ++ cleaves r end.
Fixpoint ceval (t : ctree) : SE3Cov :=
  match t with CLeaf x => x | CNode l r => se3cov_mul (ceval l) (ceval r) end.
(** left-to-right accumulation *)
Definition cchain (l : list SE3Cov) : option SE3Cov :=
  match l with nil => None | x :: r => Some (fold_left se3cov_mul r x) end.

Lemma compound_rigid a b : rigid (sc_T a) -> rigid (sc_T b) -> rigid (sc_T (se3cov_mul a b)).
Proof. intros; apply rigid_mul; auto. Qed.
Lemma fold_compound l : forall x y, rigid (sc_T x) -> rigid (sc_T y) -> Forall (fun z => rigid (sc_T z)) l ->
  fold_left se3cov_mul l (se3cov_mul x y) = se3cov_mul x (fold_left se3cov_mul l y).
Proof.
  induction l as [|z l IH]; intros x y Hx Hy F; cbn; auto. inversion F; subst.
  change (se3cov_mul (se3cov_mul x y) z) with (compound2_cov (compound2_cov x y) z).
  rewrite (compound2_assoc x y z) by auto. change (compound2_cov x (compound2_cov y z)) with (se3cov_mul x (se3cov_mul y z)).
  apply IH; auto. apply compound_rigid; auto.
Qed.
Lemma ceval_chain t : Forall (fun z => rigid (sc_T z)) (cleaves t) ->
  cchain (cleaves t) = Some (ceval t) /\ rigid (sc_T (ceval t)).
Proof.
  induction t as [x|l IHl r IHr]; cbn [cleaves ceval]; intros F.
  - inversion F; subst. split; auto.
  - apply Forall_app in F. destruct F as [Fl Fr]. destruct (IHl Fl) as [El Rl]. destruct (IHr Fr) as [Er Rr].
    split; [|apply compound_rigid; auto].
    destruct (cleaves l) as [|a la]; [discriminate|]. destruct (cleaves r) as [|b lb]; [discriminate|].
    cbn in El, Er |- *. injection El as El. injection Er as Er. rewrite fold_left_app, El. cbn.
    f_equal. rewrite fold_compound; auto.
    + rewrite Er. reflexivity.
    + inversion Fr; auto.
    + inversion Fr; auto.
Qed.
Lemma ceval_psd t : Forall (fun z => covariance6 (sc_cov z)) (cleaves t) -> covariance6 (sc_cov (ceval t)).
Proof.
  induction t as [x|l IHl r IHr]; cbn; intros F.
  - inversion F; auto.
  - apply Forall_app in F. destruct F. apply compound2_cov_psd; auto.
Qed.
