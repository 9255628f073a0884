(** Property theorems C19-C21 (class SE3Cov). *)
Require Import Reals Lra List.
From Verif Require Import Lin LinFacts SO3 SE3 SpecGeom SO3Exp SE3Alg SE3Cov SE3CovProofs SE3Cov4 PropSE3.
Import ListNotations.
Local Open Scope R_scope.

(** ** C19 *)
Theorem C19_curly_wedge_bracket : forall x y z : V6,
  hat6 (m6app (curly_wedge x) y) = m4sub (m4mul (hat6 x) (hat6 y)) (m4mul (hat6 y) (hat6 x)) /\
  m6app (curly_wedge x) y = v6opp (m6app (curly_wedge y) x) /\
  v6add (v6add (m6app (curly_wedge x) (m6app (curly_wedge y) z)) (m6app (curly_wedge y) (m6app (curly_wedge z) x)))
        (m6app (curly_wedge z) (m6app (curly_wedge x) y)) = v6zero.
Proof. intros. split; [apply curly_bracket|]. split; [apply curly_antisym | apply curly_jacobi]. Qed.
Print Assumptions C19_curly_wedge_bracket.
Theorem C19_adjoint_automorphism : forall T x y, rigid T ->
  m6app (se3_adj T) (m6app (curly_wedge x) y) = m6app (curly_wedge (m6app (se3_adj T) x)) (m6app (se3_adj T) y).
Proof. exact curly_adj. Qed.
Print Assumptions C19_adjoint_automorphism.
Example C19_example : rigid pose_ex /\
  m6app (curly_wedge (mkV6 (mkV3 1 0 0) v3zero)) (mkV6 v3zero (mkV3 0 1 0)) = mkV6 v3zero (mkV3 0 0 1).
Proof. split; [apply pose_ex_rigid|]. unfold curly_wedge, hat3. lin_unfold. lin_split; ring. Qed.

(** ** C20 *)
(** pose and variance in every direction v of a composition: the variance of
    the left pose plus that of the increment carried through the adjoint *)
Theorem C20_compound_2nd_order : forall a b v,
  sc_T (compound2_cov a b) = m4mul (sc_T a) (sc_T b) /\
  v6dot v (m6app (sc_cov (compound2_cov a b)) v) =
    v6dot v (m6app (sc_cov a) v) +
    v6dot (m6app (m6tr (se3_adj (sc_T a))) v) (m6app (sc_cov b) (m6app (m6tr (se3_adj (sc_T a))) v)) /\
  (covariance6 (sc_cov a) -> covariance6 (sc_cov b) -> covariance6 (sc_cov (compound2_cov a b))) /\
  se3cov_mul a b = compound2_cov a b.
Proof.
  intros. split; [reflexivity|]. split; [apply compound2_quadratic|]. split; [apply compound2_cov_psd | reflexivity].
Qed.
Print Assumptions C20_compound_2nd_order.
(** every bracketing of a chain of any length gives the left-to-right result,
    and keeps covariances *)
Theorem C20_chain_any_grouping : forall t : ctree,
  Forall (fun z => rigid (sc_T z)) (cleaves t) ->
  cchain (cleaves t) = Some (ceval t) /\ rigid (sc_T (ceval t)) /\
  (Forall (fun z => covariance6 (sc_cov z)) (cleaves t) -> covariance6 (sc_cov (ceval t))).
Proof. intros t H. destruct (ceval_chain t H). split; auto. split; auto. apply ceval_psd. Qed.
Print Assumptions C20_chain_any_grouping.
Example C20_example : let a := mkSE3Cov pose_ex cov_corr in
  Forall (fun z => rigid (sc_T z)) (cleaves (CNode (CLeaf a) (CNode (CLeaf a) (CLeaf a)))) /\
  Forall (fun z => covariance6 (sc_cov z)) (cleaves (CNode (CLeaf a) (CNode (CLeaf a) (CLeaf a)))).
Proof.
  split; cbn; repeat apply Forall_cons; try apply Forall_nil; cbn [sc_T sc_cov]; try apply pose_ex_rigid; apply cov_corr_cov.
Qed.

(** ** C21 *)
(** For all symmetric covariances the code's value differs from the
    fourth-order moments by exactly the e-blocks below: B_rho_phi uses
    sigma_1_rt where the moment has sigma_1_tr. *)
Theorem C21_fourth_order_exact_difference : forall a b, sym6 (sc_cov a) -> sym6 (sc_cov b) ->
  let S1 := sc_cov a in let S2 := moved (sc_T a) (sc_cov b) in
  let e := hs (m3sub (mBL S1) (mTR S1)) (mTL S2) in
  sc_T (compound4_cov a b) = m4mul (sc_T a) (sc_T b) /\
  fourth_order_cov S1 S2 =
    m6add (sc_cov (compound4_cov a b)) (m6scal (1 / 4) (mkM6 m3zero (m3tr e) e m3zero)).
Proof. exact compound4_exact_hs. Qed.
Print Assumptions C21_fourth_order_exact_difference.
Theorem C21_fourth_order_moments : forall a b, sym6 (sc_cov a) -> sym6 (sc_cov b) ->
  mTR (sc_cov a) = mBL (sc_cov a) ->
  sc_cov (compound4_cov a b) = fourth_order_cov (sc_cov a) (moved (sc_T a) (sc_cov b)).
Proof. exact compound4_symmetric_cross. Qed.
Print Assumptions C21_fourth_order_moments.
Theorem C21_fourth_order_symmetric : forall a b, sym6 (sc_cov a) -> sym6 (sc_cov b) ->
  sym6 (sc_cov (compound4_cov a b)).
Proof. exact compound4_sym. Qed.
Print Assumptions C21_fourth_order_symmetric.
Theorem C21_fourth_order_certain : forall a b, sc_cov a = m6zero \/ sc_cov b = m6zero ->
  compound4_cov a b = compound2_cov a b.
Proof. intros a b [H|H]; [apply compound4_certain_l | apply compound4_certain_r]; auto. Qed.
Print Assumptions C21_fourth_order_certain.
(** the moments are not met in general *)
Theorem C21_fourth_order_moments_refuted : exists a b,
  rigid (sc_T a) /\ rigid (sc_T b) /\ covariance6 (sc_cov a) /\ covariance6 (sc_cov b) /\
  sc_cov (compound4_cov a b) <> fourth_order_cov (sc_cov a) (moved (sc_T a) (sc_cov b)).
Proof.
  exists (mkSE3Cov m4id cov_corr), (mkSE3Cov m4id m6id).
  split; [apply rigid_id|]. split; [apply rigid_id|]. split; [apply cov_corr_cov|]. split; [apply cov_id_cov|].
  apply compound4_wrong.
Qed.
Print Assumptions C21_fourth_order_moments_refuted.
(** and the result need not be a covariance *)
Theorem C21_fourth_order_psd_refuted : exists a b,
  rigid (sc_T a) /\ rigid (sc_T b) /\ covariance6 (sc_cov a) /\ covariance6 (sc_cov b) /\
  ~ psd6 (sc_cov (compound4_cov a b)).
Proof.
  exists (mkSE3Cov m4id cov_big), (mkSE3Cov m4id cov_unit_y). destruct compound4_not_psd as (A & B & C).
  split; [apply rigid_id|]. split; [apply rigid_id|]. auto.
Qed.
Print Assumptions C21_fourth_order_psd_refuted.
Example C21_example : sym6 cov_corr /\ sym6 m6id /\ mTR m6id = mBL m6id /\ mTL (cov4_B m6id m6id) = m3scal 2 m3id.
Proof.
  split; [apply cov_corr_cov|]. split; [apply cov_id_cov|]. split; [reflexivity|].
  unfold cov4_B, brackets2, brackets1; cbn [mTL m6id]. lin_unfold. lin_split; ring.
Qed.
