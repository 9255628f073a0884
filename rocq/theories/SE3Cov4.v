(** Fourth-order covariance composition: the blocks computed by
    SE3Cov::compound_4th_order against the moments they stand for. *)
Require Import Reals Lra List.
From Verif Require Import Lin SO3 SE3 SE3Cov LinFacts SpecGeom SE3Alg SE3CovProofs.
Import ListNotations.
Local Open Scope R_scope.

(** ** what the blocks stand for *)
Definition basis3 : list V3 := [mkV3 1 0 0; mkV3 0 1 0; mkV3 0 0 1].
Definition basis6 : list V6 :=
  map (fun e => mkV6 e v3zero) basis3 ++ map (fun e => mkV6 v3zero e) basis3.
Definition m6sum (l : list M6) : M6 := fold_right m6add m6zero l.
(** sum_ij S_ij ad(e_i) ad(e_j): the second moment E[ad(xi) ad(xi)] *)
Definition moment_A (ad : V6 -> M6) (S : M6) : M6 :=
  m6sum (map (fun a => m6sum (map (fun b =>
    m6scal (v6dot a (m6app S b)) (m6mul (ad a) (ad b))) basis6)) basis6).
(** sum_ij S1_ij ad(e_i) S2 ad(e_j)^T: the moment E[ad(xi1) xi2 xi2^T ad(xi1)^T] *)
Definition moment_B (ad : V6 -> M6) (S1 S2 : M6) : M6 :=
  m6sum (map (fun a => m6sum (map (fun b =>
    m6scal (v6dot a (m6app S1 b)) (m6mul (m6mul (ad a) S2) (m6tr (ad b)))) basis6)) basis6).

(** ** sums *)
Lemma m3mul_0_l A : m3mul m3zero A = m3zero. Proof. lin. Qed.
Lemma m3mul_0_r A : m3mul A m3zero = m3zero. Proof. lin. Qed.
Lemma m3add_0_l A : m3add m3zero A = A. Proof. lin. Qed.
Lemma m3add_0_r A : m3add A m3zero = A. Proof. lin. Qed.
Lemma m3scal_0 k : m3scal k m3zero = m3zero. Proof. lin. Qed.
Lemma m3tr_0 : m3tr m3zero = m3zero. Proof. lin. Qed.
Lemma hat3_0 : hat3 v3zero = m3zero. Proof. unfold hat3; lin. Qed.
#[local] Hint Rewrite m3mul_0_l m3mul_0_r m3add_0_l m3add_0_r m3scal_0 m3tr_0 hat3_0 : mz.

Definition m3sum (l : list M3) : M3 := fold_right m3add m3zero l.
Definition m3sum2 (f : V3 -> V3 -> M3) : M3 := m3sum (map (fun a => m3sum (map (f a) basis3)) basis3).
Lemma m6_eta M : M = mkM6 (mTL M) (mTR M) (mBL M) (mBR M). Proof. destruct M; reflexivity. Qed.
Lemma m6sum_app l l' : m6sum (l ++ l') = m6add (m6sum l) (m6sum l').
Proof.
  induction l as [|x l IH]; cbn [m6sum fold_right app]. { unfold m6sum. generalize (fold_right m6add m6zero l'). lin. }
  fold (m6sum l) (m6sum (l ++ l')). rewrite IH, m6add_assoc. reflexivity.
Qed.
Lemma m6sum_blocks {X} (f : X -> M6) l : m6sum (map f l) =
  mkM6 (m3sum (map (fun x => mTL (f x)) l)) (m3sum (map (fun x => mTR (f x)) l))
       (m3sum (map (fun x => mBL (f x)) l)) (m3sum (map (fun x => mBR (f x)) l)).
Proof.
  induction l as [|x l IH]. reflexivity.
  cbn [map]. unfold m6sum, m3sum; cbn [fold_right]. fold (m6sum (map f l)). rewrite IH. reflexivity.
Qed.
Lemma m3sum_add {X} (f g : X -> M3) l :
  m3sum (map (fun x => m3add (f x) (g x)) l) = m3add (m3sum (map f l)) (m3sum (map g l)).
Proof.
  induction l as [|x l IH]; cbn [map m3sum fold_right]. lin.
  fold (m3sum (map f l)) (m3sum (map g l)) (m3sum (map (fun x => m3add (f x) (g x)) l)). rewrite IH.
  generalize (m3sum (map f l)), (m3sum (map g l)), (f x), (g x). lin.
Qed.
Lemma m3sum_zero {X} (l : list X) : m3sum (map (fun _ => m3zero) l) = m3zero.
Proof. induction l; cbn; auto. unfold m3sum in IHl. rewrite IHl. apply m3add_0_l. Qed.

(** a double sum over the six basis vectors, by blocks *)
Definition sum6 (F : V6 -> V6 -> M6) : M6 :=
  m6sum (map (fun a => m6sum (map (F a) basis6)) basis6).
Definition W (e : V3) := mkV6 e v3zero.
Definition V (e : V3) := mkV6 v3zero e.
Lemma sum6_block (F : V6 -> V6 -> M6) (p : M6 -> M3) :
  (forall A B, p (m6add A B) = m3add (p A) (p B)) -> p m6zero = m3zero ->
  p (sum6 F) = m3add (m3add (m3sum2 (fun a b => p (F (W a) (W b)))) (m3sum2 (fun a b => p (F (W a) (V b)))))
                     (m3add (m3sum2 (fun a b => p (F (V a) (W b)))) (m3sum2 (fun a b => p (F (V a) (V b))))).
Proof.
  intros Hp H0.
  assert (Ps : forall X (f : X -> M6) l, p (m6sum (map f l)) = m3sum (map (fun x => p (f x)) l)).
  { intros X f l. induction l as [|x l IH]; cbn [map m6sum m3sum fold_right]; auto.
    rewrite Hp. unfold m6sum, m3sum in IH. rewrite IH. reflexivity. }
  unfold sum6, basis6. rewrite map_app, m6sum_app, Hp.
  rewrite !map_map, !Ps.
  assert (In : forall a, p (m6sum (map (F a) (map (fun e => mkV6 e v3zero) basis3 ++ map (fun e => mkV6 v3zero e) basis3))) =
    m3add (m3sum (map (fun b => p (F a (W b))) basis3)) (m3sum (map (fun b => p (F a (V b))) basis3))).
  { intros a. rewrite map_app, m6sum_app, Hp, !map_map, !Ps. reflexivity. }
  rewrite (map_ext _ _ (fun x => In (mkV6 x v3zero))), (map_ext _ _ (fun x => In (mkV6 v3zero x))).
  rewrite !m3sum_add. reflexivity.
Qed.
Lemma m3sum2_ext f g : (forall a b, f a b = g a b) -> m3sum2 f = m3sum2 g.
Proof. intros H. unfold m3sum2. f_equal. apply map_ext. intros a. f_equal. apply map_ext. auto. Qed.
Lemma m3sum2_zero : m3sum2 (fun _ _ => m3zero) = m3zero.
Proof. unfold m3sum2. rewrite m3sum_zero. apply m3sum_zero. Qed.
Lemma m3sum2_add f g : m3sum2 (fun a b => m3add (f a b) (g a b)) = m3add (m3sum2 f) (m3sum2 g).
Proof.
  unfold m3sum2. rewrite <- m3sum_add. f_equal. apply map_ext. intros a. apply m3sum_add.
Qed.

(** sum_ij A_ij hat3(e_i) X hat3(e_j)^T *)
Definition hs (A X : M3) : M3 :=
  m3sum2 (fun a b => m3scal (v3dot a (m3app A b)) (m3mul (m3mul (hat3 a) X) (m3tr (hat3 b)))).
Definition ha (A : M3) : M3 := m3sum2 (fun a b => m3scal (v3dot a (m3app A b)) (m3mul (hat3 a) (hat3 b))).
Lemma hs_brackets A X : hs A X = brackets2 (m3tr A) (m3tr X).
Proof.
  destruct A, X. unfold hs, m3sum2, m3sum, basis3, brackets2, brackets1, hat3.
  cbn [map fold_right]. lin_unfold. lin_split; ring.
Qed.
Lemma ha_brackets A : ha A = brackets1 (m3tr A).
Proof.
  destruct A. unfold ha, m3sum2, m3sum, basis3, brackets1, hat3.
  cbn [map fold_right]. lin_unfold. lin_split; ring.
Qed.
Lemma ent_tt S i j : v6dot (W i) (m6app S (W j)) = v3dot i (m3app (mTL S) j). Proof. unfold W; lin. Qed.
Lemma ent_tr S i j : v6dot (W i) (m6app S (V j)) = v3dot i (m3app (mTR S) j). Proof. unfold W, V; lin. Qed.
Lemma ent_rt S i j : v6dot (V i) (m6app S (W j)) = v3dot i (m3app (mBL S) j). Proof. unfold W, V; lin. Qed.
Lemma ent_rr S i j : v6dot (V i) (m6app S (V j)) = v3dot i (m3app (mBR S) j). Proof. unfold V; lin. Qed.
Lemma cw_W e : curly_wedge (W e) = mkM6 (hat3 e) m3zero m3zero (hat3 e).
Proof. unfold curly_wedge, W; cbn. rewrite hat3_0. reflexivity. Qed.
Lemma cw_V e : curly_wedge (V e) = mkM6 m3zero m3zero (hat3 e) m3zero.
Proof. unfold curly_wedge, V; cbn. rewrite hat3_0. reflexivity. Qed.
#[local] Hint Rewrite ent_tt ent_tr ent_rt ent_rr cw_W cw_V : mz.
Lemma m3scal_add k A B : m3scal k (m3add A B) = m3add (m3scal k A) (m3scal k B). Proof. lin. Qed.

Ltac blk :=
  rewrite sum6_block by (intros; reflexivity);
  etransitivity;
  [ apply f_equal2; apply f_equal2; apply m3sum2_ext; intros;
    autorewrite with mz; unfold m6scal, m6mul, m6tr; cbn [mTL mTR mBL mBR];
    autorewrite with mz; reflexivity
  | cbn beta; repeat rewrite m3sum2_zero; repeat rewrite m3add_0_l; repeat rewrite m3add_0_r ].

Lemma moment_A_blocks S :
  moment_A curly_wedge S = mkM6 (ha (mTL S)) m3zero (m3add (ha (mTR S)) (ha (mBL S))) (ha (mTL S)).
Proof.
  change (moment_A curly_wedge S) with (sum6 (fun a b => m6scal (v6dot a (m6app S b)) (m6mul (curly_wedge a) (curly_wedge b)))).
  rewrite (m6_eta (sum6 _)).
  apply m6_eq; cbn [mTL mTR mBL mBR]; blk; reflexivity.
Qed.
Lemma moment_B_blocks S1 S2 :
  moment_B curly_wedge S1 S2 =
  mkM6 (hs (mTL S1) (mTL S2))
       (m3add (hs (mTL S1) (mTR S2)) (hs (mTR S1) (mTL S2)))
       (m3add (hs (mTL S1) (mBL S2)) (hs (mBL S1) (mTL S2)))
       (m3add (m3add (hs (mTL S1) (mBR S2)) (hs (mTR S1) (mBL S2)))
              (m3add (hs (mBL S1) (mTR S2)) (hs (mBR S1) (mTL S2)))).
Proof.
  change (moment_B curly_wedge S1 S2) with
    (sum6 (fun a b => m6scal (v6dot a (m6app S1 b)) (m6mul (m6mul (curly_wedge a) S2) (m6tr (curly_wedge b))))).
  rewrite (m6_eta (sum6 _)).
  apply m6_eq; cbn [mTL mTR mBL mBR]; blk; reflexivity.
Qed.

(** ** the code's blocks *)
Lemma sym6_blocks S : sym6 S -> m3tr (mTL S) = mTL S /\ m3tr (mBR S) = mBR S /\ m3tr (mBL S) = mTR S /\ m3tr (mTR S) = mBL S.
Proof. destruct S as [TL TR BL BR]. unfold sym6, m6tr; cbn. intros E. injection E; auto. Qed.
Lemma moment_A1 S : sym6 S -> cov4_A1 S = moment_A curly_wedge S.
Proof.
  intros H. destruct (sym6_blocks S H) as (a & b & c & d). rewrite moment_A_blocks, !ha_brackets, a, c, d.
  unfold cov4_A1. f_equal. unfold brackets1. generalize (mBL S), (mTR S). lin.
Qed.
Lemma moment_A2 S : sym6 S -> cov4_A2 S = moment_A curly_wedge S.
Proof.
  intros H. destruct (sym6_blocks S H) as (a & b & c & d). rewrite moment_A_blocks, !ha_brackets, a, c, d.
  unfold cov4_A2. rewrite c. f_equal. unfold brackets1. generalize (mBL S), (mTR S). lin.
Qed.
(** the off-diagonal block of the true moment uses sigma_1_tr where the code has sigma_1_rt *)
Lemma moment_B_exact S1 S2 : sym6 S1 -> sym6 S2 ->
  moment_B curly_wedge S1 S2 =
  let e := brackets2 (m3sub (mTR S1) (mBL S1)) (mTL S2) in
  m6add (cov4_B S1 S2) (mkM6 m3zero (m3tr e) e m3zero).
Proof.
  intros H1 H2. destruct (sym6_blocks S1 H1) as (a & b & c & d). destruct (sym6_blocks S2 H2) as (a' & b' & c' & d').
  rewrite moment_B_blocks, !hs_brackets, a, b, c, d, a', b', c', d'.
  unfold cov4_B, m6add; cbn [mTL mTR mBL mBR].
  assert (Tb : forall A X, m3tr (brackets2 A X) = brackets2 (m3tr A) (m3tr X)).
  { intros. rewrite <- (m3tr_tr A), <- (m3tr_tr X), <- hs_brackets. rewrite !m3tr_tr. rewrite hs_brackets.
    unfold brackets2, brackets1; lin. }
  assert (Ta : forall A X, m3tr (m3add A X) = m3add (m3tr A) (m3tr X)) by lin.
  assert (Ts : forall A X, m3tr (m3sub A X) = m3sub (m3tr A) (m3tr X)) by lin.
  assert (Bs : forall A A' X, brackets2 (m3sub A A') X = m3sub (brackets2 A X) (brackets2 A' X))
    by (unfold brackets2, brackets1; lin).
  rewrite !Ta, !Tb, !Ts, !Bs, ?a, ?a', ?c, ?d, ?d', ?c'.
  apply m6_eq; cbn [mTL mTR mBL mBR].
  all: generalize (brackets2 (mTL S1) (mTL S2)), (brackets2 (mTL S1) (mBL S2)), (brackets2 (mTL S1) (mTR S2)), (brackets2 (mTR S1) (mTL S2)),
   (brackets2 (mBL S1) (mTL S2)), (brackets2 (mTL S1) (mBR S2)), (brackets2 (mTR S1) (mBL S2)), (brackets2 (mBL S1) (mTR S2)), (brackets2 (mBR S1) (mTL S2)).
  all: lin.
Qed.

(** ** the whole result *)
(** the fourth-order covariance written with the moments themselves
    (S1: covariance of the left pose, S2: covariance of the increment moved
    to the left frame) *)
Definition fourth_order_cov (S1 S2 : M6) : M6 :=
  let A1 := moment_A curly_wedge S1 in
  let A2 := moment_A curly_wedge S2 in
  m6add (m6add (m6add S1 S2)
    (m6scal (1 / 12) (m6add (m6add (m6add (m6mul A1 S2) (m6mul S2 (m6tr A1))) (m6mul A2 S1)) (m6mul S1 (m6tr A2)))))
    (m6scal (1 / 4) (moment_B curly_wedge S1 S2)).
Definition moved (T : M4) (S : M6) : M6 := m6mul (m6mul (se3_adj T) S) (m6tr (se3_adj T)).
Lemma moved_sym T S : sym6 S -> sym6 (moved T S).
Proof. unfold sym6, moved. intros H. rewrite !m6tr_mul, m6tr_tr, H, m6mul_assoc. reflexivity. Qed.
Lemma compound4_exact a b : sym6 (sc_cov a) -> sym6 (sc_cov b) ->
  let S1 := sc_cov a in let S2 := moved (sc_T a) (sc_cov b) in
  let e := brackets2 (m3sub (mTR S1) (mBL S1)) (mTL S2) in
  sc_T (compound4_cov a b) = m4mul (sc_T a) (sc_T b) /\
  fourth_order_cov S1 S2 =
    m6add (sc_cov (compound4_cov a b)) (m6scal (1 / 4) (mkM6 m3zero (m3tr e) e m3zero)).
Proof.
  intros H1 H2. cbv zeta. split; [reflexivity|].
  pose proof (moved_sym (sc_T a) _ H2) as H2'.
  unfold compound4_cov, compound4; cbn [sc_cov]. fold (moved (sc_T a) (sc_cov b)).
  unfold fourth_order_cov. cbv zeta.
  rewrite <- moment_A1, <- moment_A2, moment_B_exact by auto. cbv zeta.
  generalize (m6mul (cov4_A1 (sc_cov a)) (moved (sc_T a) (sc_cov b))),
   (m6mul (moved (sc_T a) (sc_cov b)) (m6tr (cov4_A1 (sc_cov a)))),
   (m6mul (cov4_A2 (moved (sc_T a) (sc_cov b))) (sc_cov a)),
   (m6mul (sc_cov a) (m6tr (cov4_A2 (moved (sc_T a) (sc_cov b))))).
  generalize (cov4_B (sc_cov a) (moved (sc_T a) (sc_cov b))).
  generalize (brackets2 (m3sub (mTR (sc_cov a)) (mBL (sc_cov a))) (mTL (moved (sc_T a) (sc_cov b)))).
  generalize (moved (sc_T a) (sc_cov b)). generalize (sc_cov a). clear. intros. 
  assert (D : forall k X Y, m6scal k (m6add X Y) = m6add (m6scal k X) (m6scal k Y)) by lin.
  rewrite !D, !m6add_assoc. reflexivity.
Qed.
(** same, with the difference written as a moment of hat3 *)
Lemma compound4_exact_hs a b : sym6 (sc_cov a) -> sym6 (sc_cov b) ->
  let S1 := sc_cov a in let S2 := moved (sc_T a) (sc_cov b) in
  let e := hs (m3sub (mBL S1) (mTR S1)) (mTL S2) in
  sc_T (compound4_cov a b) = m4mul (sc_T a) (sc_T b) /\
  fourth_order_cov S1 S2 =
    m6add (sc_cov (compound4_cov a b)) (m6scal (1 / 4) (mkM6 m3zero (m3tr e) e m3zero)).
Proof.
  intros H1 H2. cbv zeta. rewrite hs_brackets.
  destruct (sym6_blocks _ H1) as (_ & _ & c & d).
  destruct (sym6_blocks _ (moved_sym (sc_T a) _ H2)) as (a' & _ & _ & _).
  assert (Ts : forall A X, m3tr (m3sub A X) = m3sub (m3tr A) (m3tr X)) by lin.
  rewrite Ts, c, d, a'. apply compound4_exact; auto.
Qed.
Lemma cov4_B_sym S1 S2 : sym6 S1 -> sym6 S2 -> sym6 (cov4_B S1 S2).
Proof.
  intros H1 H2. destruct (sym6_blocks S1 H1) as (a & b & c & d). destruct (sym6_blocks S2 H2) as (a' & b' & c' & d').
  assert (Tb : forall A X, m3tr (brackets2 A X) = brackets2 (m3tr A) (m3tr X)) by (unfold brackets2, brackets1; lin).
  assert (Ta : forall A X, m3tr (m3add A X) = m3add (m3tr A) (m3tr X)) by lin.
  unfold sym6, m6tr, cov4_B; cbn [mTL mTR mBL mBR].
  rewrite !m3tr_tr, !Ta, !Tb, ?a, ?b, ?c, ?d, ?a', ?b', ?c', ?d'. f_equal.
  generalize (brackets2 (mTL S1) (mBR S2)), (brackets2 (mTR S1) (mBL S2)), (brackets2 (mBL S1) (mTR S2)), (brackets2 (mBR S1) (mTL S2)). lin.
Qed.
Lemma compound4_sym a b : sym6 (sc_cov a) -> sym6 (sc_cov b) -> sym6 (sc_cov (compound4_cov a b)).
Proof.
  intros H1 H2. pose proof (moved_sym (sc_T a) _ H2) as H2'. pose proof (cov4_B_sym _ _ H1 H2') as HB.
  unfold compound4_cov, compound4; cbn [sc_cov]. fold (moved (sc_T a) (sc_cov b)).
  set (S1 := sc_cov a) in *. set (S2 := moved _ _) in *. generalize (cov4_A1 S1), (cov4_A2 S2). intros A1 A2.
  assert (Ts : forall k X, m6tr (m6scal k X) = m6scal k (m6tr X)) by lin.
  unfold sym6 in *. rewrite !m6tr_add, !Ts, !m6tr_add, HB, H1, H2', !m6tr_mul, !m6tr_tr, H1, H2'.
  do 3 f_equal.
  generalize (m6mul S2 (m6tr A1)), (m6mul A1 S2), (m6mul S1 (m6tr A2)), (m6mul A2 S1). lin.
Qed.
Lemma compound4_symmetric_cross a b : sym6 (sc_cov a) -> sym6 (sc_cov b) -> mTR (sc_cov a) = mBL (sc_cov a) ->
  sc_cov (compound4_cov a b) = fourth_order_cov (sc_cov a) (moved (sc_T a) (sc_cov b)).
Proof.
  intros H1 H2 E. destruct (compound4_exact a b H1 H2) as [_ ->]. rewrite E.
  replace (brackets2 (m3sub (mBL (sc_cov a)) (mBL (sc_cov a))) (mTL (moved (sc_T a) (sc_cov b)))) with m3zero.
  - generalize (sc_cov (compound4_cov a b)). lin.
  - generalize (mBL (sc_cov a)), (mTL (moved (sc_T a) (sc_cov b))). unfold brackets2, brackets1. lin.
Qed.
(** certain poses: the correction vanishes *)
Lemma compound4_certain_l a b : sc_cov a = m6zero -> compound4_cov a b = compound2_cov a b.
Proof.
  intros E. unfold compound4_cov, compound4, compound2_cov, compound2. rewrite E. fold (moved (sc_T a) (sc_cov b)). f_equal.
  generalize (moved (sc_T a) (sc_cov b)). intros S.
  unfold cov4_A1, cov4_B. cbv zeta. 
  assert (Z1 : brackets1 m3zero = m3zero) by (unfold brackets1; lin).
  assert (Z2 : forall X, brackets2 m3zero X = m3zero) by (unfold brackets2, brackets1; lin).
  cbn [m6zero mTL mTR mBL mBR]. rewrite m3add_0_l, Z1, !Z2. autorewrite with mz.
  generalize (cov4_A2 S). intros. lin.
Qed.
Lemma compound4_certain_r a b : sc_cov b = m6zero -> compound4_cov a b = compound2_cov a b.
Proof.
  intros E. unfold compound4_cov, compound4, compound2_cov, compound2. rewrite E.
  replace (m6mul (m6mul (se3_adj (sc_T a)) m6zero) (m6tr (se3_adj (sc_T a)))) with m6zero
   by (generalize (se3_adj (sc_T a)); lin). f_equal.
  generalize (sc_cov a). intros S.
  unfold cov4_A2, cov4_B. cbv zeta. 
  assert (Z1 : brackets1 m3zero = m3zero) by (unfold brackets1; lin).
  assert (Z2 : forall X, brackets2 X m3zero = m3zero) by (unfold brackets2, brackets1; lin).
  cbn [m6zero mTL mTR mBL mBR]. autorewrite with mz. rewrite Z1, !Z2. autorewrite with mz.
  generalize (cov4_A1 S). intros. lin.
Qed.

(** ** witnesses *)
Definition m3diag (a b c : R) : M3 := mkM3 a 0 0 0 b 0 0 0 c.
(** unit covariance with a rotation-translation correlation 1/2 between
    theta_x and rho_y *)
Definition cov_corr : M6 :=
  mkM6 m3id (mkM3 0 (1/2) 0 0 0 0 0 0 0) (mkM3 0 0 0 (1/2) 0 0 0 0 0) m3id.
Lemma cov_corr_cov : covariance6 cov_corr.
Proof.
  split; [lin_unfold; reflexivity|]. intros [[a b c] [d e f]]. unfold cov_corr. lin_unfold.
  match goal with |- 0 <= ?x => replace x with (b*b+c*c+d*d+f*f+3/4*(a*a) + (a/2+e)*(a/2+e)) by field end.
  pose proof (Rle_0_sqr a). pose proof (Rle_0_sqr b). pose proof (Rle_0_sqr c). pose proof (Rle_0_sqr d).
  pose proof (Rle_0_sqr f). pose proof (Rle_0_sqr (a/2+e)). unfold Rsqr in *. lra.
Qed.
Lemma cov_id_cov : covariance6 m6id.
Proof.
  split; [lin_unfold; reflexivity|]. intros [[a b c] [d e f]]. lin_unfold.
  pose proof (Rle_0_sqr a). pose proof (Rle_0_sqr b). pose proof (Rle_0_sqr c). pose proof (Rle_0_sqr d).
  pose proof (Rle_0_sqr e). pose proof (Rle_0_sqr f). unfold Rsqr in *. lra.
Qed.
Lemma moved_id S : moved m4id S = S.
Proof. unfold moved. rewrite adj_id. lin. Qed.
Lemma compound4_wrong : let a := mkSE3Cov m4id cov_corr in let b := mkSE3Cov m4id m6id in
  sc_cov (compound4_cov a b) <> fourth_order_cov (sc_cov a) (moved (sc_T a) (sc_cov b)).
Proof.
  cbv zeta. intros E.
  destruct (compound4_exact (mkSE3Cov m4id cov_corr) (mkSE3Cov m4id m6id)) as [_ E'].
  apply cov_corr_cov. apply cov_id_cov. rewrite <- E in E'. clear E.
  revert E'. generalize (sc_cov (compound4_cov (mkSE3Cov m4id cov_corr) (mkSE3Cov m4id m6id))). intros X E.
  cbn [sc_cov sc_T] in E. rewrite moved_id in E. apply (f_equal mBL) in E. unfold m6add in E; cbn [mBL] in E.
  apply (f_equal Lin.a01) in E. revert E. unfold brackets2, brackets1, cov_corr. destruct X as [? ? [] ?]. lin_unfold. lra.
Qed.
(** a rotation variance above 6 square radians gives a negative variance *)
Definition cov_big : M6 := mkM6 (m3diag 12 0 0) m3zero m3zero m3zero.
Definition cov_unit_y : M6 := mkM6 (m3diag 0 1 0) m3zero m3zero m3zero.
Lemma compound4_not_psd : covariance6 cov_big /\ covariance6 cov_unit_y /\
  ~ psd6 (sc_cov (compound4_cov (mkSE3Cov m4id cov_big) (mkSE3Cov m4id cov_unit_y))).
Proof.
  assert (P : forall x, 0 <= x * x) by (intros; pose proof (Rle_0_sqr x); unfold Rsqr in *; lra).
  split; [|split].
  - split; [lin_unfold; reflexivity|]. intros [[a b c] [d e f]]. unfold cov_big, m3diag. lin_unfold. specialize (P a). lra.
  - split; [lin_unfold; reflexivity|]. intros [[a b c] [d e f]]. unfold cov_unit_y, m3diag. lin_unfold. specialize (P b). lra.
  - intros H. specialize (H (mkV6 (mkV3 0 1 0) v3zero)). revert H.
    unfold compound4_cov, compound4. cbn [sc_T sc_cov]. fold (moved m4id cov_unit_y). rewrite moved_id.
    unfold cov4_A1, cov4_A2, cov4_B, cov_big, cov_unit_y, brackets2, brackets1, m3diag. lin_unfold. lra.
Qed.
