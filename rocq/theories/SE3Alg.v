(** Proofs: group structure, action on points, adjoint, isSE3. *)
Require Import Reals Lra Psatz Bool List.
From Verif Require Import Lin LinFacts SO3 SE3 SE3Ops SpecGeom SO3Exp SO3Ln SO3Misc SO3Near SO3Ops SO3Dist.
Import ListNotations.
Local Open Scope R_scope.

Lemma rigid_form T : rigid T -> T = se3_of_Rt (mR T) (mt T).
Proof. destruct T as [A t b c]; unfold rigid, se3_of_Rt; cbn. intros (_ & -> & ->). reflexivity. Qed.
Lemma rigid_of_Rt A t : rotation A -> rigid (se3_of_Rt A t).
Proof. intros H. split; [exact H | split; reflexivity]. Qed.
Lemma rigid_id : rigid m4id.
Proof. split; [apply rotation_id | split; reflexivity]. Qed.
Lemma mul_of_Rt A t B u : m4mul (se3_of_Rt A t) (se3_of_Rt B u) = se3_of_Rt (m3mul A B) (v3add (m3app A u) t).
Proof. unfold se3_of_Rt. lin. Qed.
Lemma inv_of_Rt A t : se3_inv (se3_of_Rt A t) = se3_of_Rt (m3tr A) (v3opp (m3app (m3tr A) t)).
Proof. unfold se3_of_Rt, se3_inv. lin. Qed.
Lemma of_Rt_inj A t B u : se3_of_Rt A t = se3_of_Rt B u -> A = B /\ t = u.
Proof. intros H; injection H; auto. Qed.

Lemma rigid_mul A B : rigid A -> rigid B -> rigid (m4mul A B).
Proof.
  intros HA HB. rewrite (rigid_form A HA), (rigid_form B HB), mul_of_Rt.
  apply rigid_of_Rt, rotation_mul; [apply HA | apply HB].
Qed.
Lemma rigid_inv A : rigid A -> rigid (se3_inv A).
Proof. intros HA. rewrite (rigid_form A HA), inv_of_Rt. apply rigid_of_Rt, rotation_tr, HA. Qed.
Lemma of_Rt_id : se3_of_Rt m3id v3zero = m4id.
Proof. reflexivity. Qed.
Lemma v3add_opp_l u : v3add (v3opp u) u = v3zero. Proof. lin. Qed.
Lemma rigid_rinv A : rigid A -> m4mul A (se3_inv A) = m4id.
Proof.
  intros HA. rewrite (rigid_form A HA) at 1 2. rewrite inv_of_Rt, mul_of_Rt.
  rewrite (rotation_rinv _ (proj1 HA)). rewrite <- of_Rt_id. f_equal.
  replace (m3app (mR A) (v3opp (m3app (m3tr (mR A)) (mt A)))) with
    (v3opp (m3app (m3mul (mR A) (m3tr (mR A))) (mt A))) by (rewrite m3app_mul; generalize (m3app (m3tr (mR A)) (mt A)) (mR A); lin).
  rewrite (rotation_rinv _ (proj1 HA)), m3app_id. apply v3add_opp_l.
Qed.
Lemma rigid_linv A : rigid A -> m4mul (se3_inv A) A = m4id.
Proof.
  intros HA. rewrite (rigid_form A HA) at 1 2. rewrite inv_of_Rt, mul_of_Rt.
  rewrite (rotation_linv _ (proj1 HA)). rewrite <- of_Rt_id. f_equal. 
  generalize (m3app (m3tr (mR A)) (mt A)). lin.
Qed.
Lemma se3_inv_mul A B : rigid A -> rigid B -> se3_inv (m4mul A B) = m4mul (se3_inv B) (se3_inv A).
Proof.
  intros HA HB. rewrite (rigid_form A HA), (rigid_form B HB), mul_of_Rt, !inv_of_Rt, mul_of_Rt.
  rewrite m3tr_mul. f_equal. set (A1 := mR A). set (B1 := mR B). set (a := mt A). set (b := mt B).
  assert (L : m3mul (m3tr A1) A1 = m3id) by (apply rotation_linv, HA).
  rewrite !m3app_mul. rewrite m3app_add.
  rewrite <- (m3app_mul (m3tr A1) A1), L, m3app_id.
  generalize (m3tr B1), (m3app (m3tr A1) a), b. clear. lin.
Qed.
Lemma se3_inv_inv A : rigid A -> se3_inv (se3_inv A) = A.
Proof.
  intros HA. transitivity (se3_of_Rt (mR A) (mt A)); [|symmetry; apply rigid_form, HA].
  transitivity (se3_inv (se3_inv (se3_of_Rt (mR A) (mt A)))); [rewrite <- rigid_form; auto|].
  rewrite !inv_of_Rt, m3tr_tr. f_equal.
  pose proof (rotation_rinv _ (proj1 HA)) as L. revert L. generalize (mR A), (mt A). intros B t L.
  replace (m3app B (v3opp (m3app (m3tr B) t))) with (v3opp (m3app (m3mul B (m3tr B)) t))
    by (rewrite m3app_mul; generalize (m3app (m3tr B) t), B; lin).
  rewrite L, m3app_id. lin.
Qed.

(** ** exp: block form *)
Lemma hat6_block xi : hat6 xi = mkM4 (hat3 (v6w xi)) (v6v xi) v3zero 0.
Proof. destruct xi as [[? ? ?] [? ? ?]]; reflexivity. Qed.
Lemma vee6_hat6 xi : vee6 (hat6 xi) = xi.
Proof. destruct xi as [[? ? ?] [? ? ?]]; unfold vee6, hat6; cbn; f_equal; apply v3_eq; ring. Qed.
Lemma hat6_alg xi : is_se3_alg (hat6 xi).
Proof. rewrite hat6_block. split; [apply hat3_skew | split; reflexivity]. Qed.
Lemma hat6_vee6 X : is_se3_alg X -> hat6 (vee6 X) = X.
Proof.
  destruct X as [W t b c]. intros (S & B & C). cbn in *. subst. rewrite hat6_block. unfold vee6; cbn.
  f_equal; [apply (hat3_vee3 W S) | destruct t; reflexivity].
Qed.

Definition Vmat (w : V3) : M3 :=
  rod (se3_exp_c2 (v3norm w) (v3sqn w)) (se3_exp_c3 (v3norm w) (v3sqn w)) w.
Lemma se3_of_vec_block xi :
  se3_of_vec xi = se3_of_Rt (so3_of_vec (v6w xi)) (m3app (Vmat (v6w xi)) (v6v xi)).
Proof.
  unfold se3_of_vec, se3_exp; cbv zeta. rewrite vee6_hat6, hat6_block. cbn [mR].
  unfold se3_of_Rt, Vmat, rod. f_equal. f_equal.
  generalize (se3_exp_c2 (v3norm (v6w xi)) (v3sqn (v6w xi))), (se3_exp_c3 (v3norm (v6w xi)) (v3sqn (v6w xi))).
  generalize (hat3 (v6w xi)). clear. lin.
Qed.
Lemma se3_exp_rigid xi : v6w xi = v3zero \/ 1 / 100000 <= v3norm (v6w xi) -> rigid (se3_of_vec xi).
Proof. intros H. rewrite se3_of_vec_block. apply rigid_of_Rt, so3_update_ok, H. Qed.
Lemma se3_run_rigid ops : Forall se3_op_ok ops -> forall T, rigid T -> rigid (se3_run T ops).
Proof.
  unfold se3_run. induction ops as [|op ops IH]; intros F T HT; cbn; auto.
  inversion F; subst. apply IH; auto.
  destruct op; cbn in *; unfold se3_mul, se3_update_lhs, se3_update_rhs;
    auto using rigid_mul, rigid_inv, se3_exp_rigid.
Qed.

(** the rotation block of a run is the SO3 run of the rotation blocks *)
Definition op_rot (op : se3_op) : so3_op :=
  match op with
  | Se3Mul B => So3Mul (mR B)
  | Se3MulLeft B => So3MulLeft (mR B)
  | Se3Inv => So3Inv
  | Se3UpdLhs dxi => So3UpdLhs (v6w dxi)
  | Se3UpdRhs dxi => So3UpdRhs (v6w dxi)
  end.
Lemma se3_step_block A t op : se3_op_rigid op ->
  exists u, se3_step (se3_of_Rt A t) op = se3_of_Rt (so3_step A (op_rot op)) u.
Proof.
  intros H. destruct op; cbn in *; unfold se3_mul, se3_update_lhs, se3_update_rhs.
  - rewrite (rigid_form B H), mul_of_Rt. eexists; reflexivity.
  - rewrite (rigid_form B H), mul_of_Rt. eexists; reflexivity.
  - rewrite inv_of_Rt. eexists; reflexivity.
  - rewrite se3_of_vec_block, mul_of_Rt. eexists; reflexivity.
  - rewrite se3_of_vec_block, mul_of_Rt. eexists; reflexivity.
Qed.
Lemma se3_run_block ops : Forall se3_op_rigid ops -> forall A t,
  exists u, se3_run (se3_of_Rt A t) ops = se3_of_Rt (so3_run A (map op_rot ops)) u.
Proof.
  unfold se3_run, so3_run. induction ops as [|op ops IH]; intros F A t; cbn; [eauto|].
  inversion F; subst. destruct (se3_step_block A t op) as [u E]; auto. rewrite E. apply IH; auto.
Qed.
Lemma se3_run_near_rigid ops T : rigid T -> Forall se3_op_rigid ops -> INR (length ops) * / 10 ^ 30 < 1 ->
  near_rigid (INR (length ops) * / 10 ^ 30) (se3_run T ops).
Proof.
  intros HT F HN. rewrite (rigid_form T HT). destruct (se3_run_block ops F (mR T) (mt T)) as [u E]. rewrite E.
  split; [|split; reflexivity]. cbn [mR se3_of_Rt]. rewrite <- (map_length op_rot ops) in *.
  apply so3_run_near_rotation; auto; [apply HT|].
  clear - F. induction F; cbn; constructor; auto.
  destruct x; cbn in *; auto; destruct H; auto.
Qed.

(** ** action on points *)
Lemma transform_dist T p q : rigid T ->
  v3norm (v3sub (se3_transform T p) (se3_transform T q)) = v3norm (v3sub p q).
Proof.
  intros HT. unfold se3_transform.
  replace (v3sub _ _) with (m3app (mR T) (v3sub p q)).
  - apply rotation_norm, HT.
  - rewrite m3app_sub. generalize (m3app (mR T) p), (m3app (mR T) q), (mt T). lin.
Qed.
Lemma transform_mul A B p : rigid A -> rigid B ->
  se3_transform (se3_mul A B) p = se3_transform A (se3_transform B p).
Proof.
  intros HA HB. unfold se3_mul. rewrite (rigid_form A HA), (rigid_form B HB), mul_of_Rt.
  unfold se3_transform; cbn. rewrite m3app_mul, m3app_add.
  generalize (m3app (mR A) (m3app (mR B) p)), (m3app (mR A) (mt B)), (mt A). lin.
Qed.
Lemma transform_id p : se3_transform m4id p = p.
Proof. unfold se3_transform; cbn. lin. Qed.
Lemma transform_inv_l T p : rigid T -> se3_transform (se3_inv T) (se3_transform T p) = p.
Proof.
  intros HT. rewrite <- transform_mul; auto using rigid_inv. unfold se3_mul. rewrite rigid_linv by auto. apply transform_id.
Qed.
Lemma transform_inv_r T p : rigid T -> se3_transform T (se3_transform (se3_inv T) p) = p.
Proof.
  intros HT. rewrite <- transform_mul; auto using rigid_inv. unfold se3_mul. rewrite rigid_rinv by auto. apply transform_id.
Qed.
Lemma transform_array_map T P : se3_transform_array T P = map (se3_transform T) P.
Proof. induction P; cbn; congruence. Qed.
(** homogeneous coordinates *)
Lemma transform_hom T p : rigid T -> m4app T (mkV4 p 1) = mkV4 (se3_transform T p) 1.
Proof. intros HT. rewrite (rigid_form T HT). unfold se3_of_Rt, se3_transform. cbn. lin. Qed.

(** ** adjoint *)
Lemma cross_rot A u v : rotation A -> m3app A (v3cross u v) = v3cross (m3app A u) (m3app A v).
Proof.
  intros HA. pose proof (rotation_adj A HA) as E.
  assert (X : v3cross (m3app A u) (m3app A v) = m3app (m3tr (m3adj A)) (v3cross u v)) by lina.
  rewrite X, E, m3tr_tr. reflexivity.
Qed.
Lemma hat3_rot A w : rotation A -> hat3 (m3app A w) = m3mul (m3mul A (hat3 w)) (m3tr A).
Proof.
  intros HA. assert (E : m3mul (hat3 (m3app A w)) A = m3mul A (hat3 w)).
  { assert (K : forall v, m3app (m3mul (hat3 (m3app A w)) A) v = m3app (m3mul A (hat3 w)) v).
    { intros v. rewrite !m3app_mul, !hat3_cross. symmetry. apply cross_rot, HA. }
    pose proof (K (mkV3 1 0 0)) as K1. pose proof (K (mkV3 0 1 0)) as K2. pose proof (K (mkV3 0 0 1)) as K3.
    destruct (m3mul (hat3 (m3app A w)) A), (m3mul A (hat3 w)). lin_unfold_in K1. lin_unfold_in K2. lin_unfold_in K3.
    injection K1; injection K2; injection K3; intros. apply m3_eq; lra. }
  rewrite <- E, m3mul_assoc, (rotation_rinv A HA), m3mul_id_r. reflexivity.
Qed.
Definition conj3 (A X : M3) : M3 := m3mul (m3mul A X) (m3tr A).
Lemma conj3_add A X Y : conj3 A (m3add X Y) = m3add (conj3 A X) (conj3 A Y).
Proof. unfold conj3. rewrite m3mul_add_r, m3mul_add_l. reflexivity. Qed.
Lemma conj3_scal A k X : conj3 A (m3scal k X) = m3scal k (conj3 A X).
Proof. unfold conj3. generalize (m3tr A). lin. Qed.
Lemma conj3_id A : rotation A -> conj3 A m3id = m3id.
Proof. intros. unfold conj3. rewrite m3mul_id_r. apply rotation_rinv; auto. Qed.
Lemma conj3_mul A X Y : rotation A -> conj3 A (m3mul X Y) = m3mul (conj3 A X) (conj3 A Y).
Proof.
  intros HA. unfold conj3. rewrite !m3mul_assoc. do 2 f_equal.
  rewrite <- (m3mul_assoc (m3tr A) A), (rotation_linv A HA), m3mul_id_l. reflexivity.
Qed.
Lemma rod_rot A c1 c2 w : rotation A -> rod c1 c2 (m3app A w) = m3mul (m3mul A (rod c1 c2 w)) (m3tr A).
Proof.
  intros HA. fold (conj3 A (rod c1 c2 w)). unfold rod. rewrite (hat3_rot A w HA). fold (conj3 A (hat3 w)).
  rewrite !conj3_add, (conj3_mul A _ _ HA), !conj3_scal, (conj3_id A HA). reflexivity.
Qed.
Lemma norm_app A w : rotation A -> v3norm (m3app A w) = v3norm w.
Proof. intros; apply rotation_norm; auto. Qed.
Lemma so3_of_vec_rot A w : rotation A -> so3_of_vec (m3app A w) = m3mul (m3mul A (so3_of_vec w)) (m3tr A).
Proof.
  intros HA. rewrite !so3_of_vec_rod. rewrite rotation_norm, rotation_sqn by auto. apply rod_rot; auto.
Qed.
Lemma Vmat_rot A w : rotation A -> Vmat (m3app A w) = m3mul (m3mul A (Vmat w)) (m3tr A).
Proof.
  intros HA. unfold Vmat. rewrite rotation_norm, rotation_sqn by auto. apply rod_rot; auto.
Qed.

Lemma adj_app T xi : m6app (se3_adj T) xi =
  mkV6 (m3app (mR T) (v6w xi)) (v3add (v3cross (mt T) (m3app (mR T) (v6w xi))) (m3app (mR T) (v6v xi))).
Proof.
  unfold se3_adj, m6app; cbn. rewrite m3app_mul, hat3_cross. f_equal. lin.
Qed.
Lemma adj_mul A B : rigid A -> rigid B -> se3_adj (m4mul A B) = m6mul (se3_adj A) (se3_adj B).
Proof.
  intros HA HB. rewrite (rigid_form A HA), (rigid_form B HB), mul_of_Rt. unfold se3_adj, m6mul; cbn.
  set (A1 := mR A). set (B1 := mR B). set (a := mt A). set (b := mt B).
  assert (E : m3mul (hat3 (v3add (m3app A1 b) a)) (m3mul A1 B1) =
    m3add (m3mul (m3mul (hat3 a) A1) B1) (m3mul A1 (m3mul (hat3 b) B1))).
  { replace (hat3 (v3add (m3app A1 b) a)) with (m3add (hat3 a) (hat3 (m3app A1 b)))
      by (generalize (m3app A1 b); clear; intros; unfold hat3; lin).
    rewrite (hat3_rot A1 b (proj1 HA)), m3mul_add_l. f_equal.
    - rewrite m3mul_assoc; reflexivity.
    - rewrite !m3mul_assoc. do 2 f_equal. rewrite <- m3mul_assoc, (rotation_linv A1 (proj1 HA)), m3mul_id_l. reflexivity. }
  rewrite E. apply m6_eq; clear; try reflexivity;
    [ | | ]; match goal with |- context [m3mul ?X m3zero] => idtac | _ => idtac end;
    generalize (m3mul A1 B1); lin.
Qed.
Lemma adj_id : se3_adj m4id = m6id.
Proof. unfold se3_adj, m6id; cbn. unfold hat3. lin. Qed.
Lemma adj_inv T : rigid T -> m6mul (se3_adj (se3_inv T)) (se3_adj T) = m6id /\ m6mul (se3_adj T) (se3_adj (se3_inv T)) = m6id.
Proof.
  intros HT. rewrite <- !adj_mul by auto using rigid_inv.
  rewrite rigid_linv, rigid_rinv by auto. split; apply adj_id.
Qed.
Lemma adj_conj T xi : rigid T -> hat6 (m6app (se3_adj T) xi) = m4mul (m4mul T (hat6 xi)) (se3_inv T).
Proof.
  intros HT. rewrite adj_app, !hat6_block. cbn [v6w v6v]. rewrite (hat3_rot _ _ (proj1 HT)).
  rewrite (rigid_form T HT) at 6 7. set (A := mR T). set (t := mt T). set (w := v6w xi). set (v := v6v xi).
  assert (HA : rotation A) by apply HT.
  rewrite inv_of_Rt. unfold se3_of_Rt.
  assert (L : m4mul (m4mul (mkM4 A t v3zero 1) (mkM4 (hat3 w) v v3zero 0)) (mkM4 (m3tr A) (v3opp (m3app (m3tr A) t)) v3zero 1)
     = mkM4 (m3mul (m3mul A (hat3 w)) (m3tr A))
            (v3add (v3opp (m3app (m3mul (m3mul A (hat3 w)) (m3tr A)) t)) (m3app A v)) v3zero 0).
  { generalize (hat3 w). clear. lin. }
  rewrite L. f_equal. rewrite <- (hat3_rot A w HA), hat3_cross. f_equal.
  generalize (m3app A w). clear. lin.
Qed.

(** T exp(xi) against exp(Adj xi) T *)
Lemma adj_exp_gen T xi : rigid T ->
  mR (m4mul T (se3_of_vec xi)) = mR (m4mul (se3_of_vec (m6app (se3_adj T) xi)) T) /\
  v3sub (mt (m4mul (se3_of_vec (m6app (se3_adj T) xi)) T)) (mt (m4mul T (se3_of_vec xi))) =
    let w' := m3app (mR T) (v6w xi) in
    m3app (m3sub (m3sub (so3_of_vec w') m3id) (m3mul (Vmat w') (hat3 w'))) (mt T).
Proof.
  intros HT. assert (HA : rotation (mR T)) by apply HT. cbv zeta.
  rewrite (rigid_form T HT). revert HA. generalize (mR T), (mt T). clear HT T. intros A t HA.
  rewrite adj_app, !se3_of_vec_block. cbn [v6w v6v mR mt se3_of_Rt].
  set (w := v6w xi). set (v := v6v xi). fold (se3_of_Rt A t).
  rewrite !mul_of_Rt. cbn [mR mt se3_of_Rt].
  rewrite (so3_of_vec_rot A w HA), (Vmat_rot A w HA). set (E := so3_of_vec w). set (V := Vmat w).
  split.
  - rewrite m3mul_assoc, (rotation_linv A HA), m3mul_id_r. reflexivity.
  - rewrite m3app_add.
    replace (m3app (m3mul (m3mul A V) (m3tr A)) (m3app A v)) with (m3app A (m3app V v)).
    2:{ rewrite <- (m3app_mul (m3mul (m3mul A V) (m3tr A)) A). rewrite (m3mul_assoc _ (m3tr A)), (rotation_linv A HA), m3mul_id_r, m3app_mul. reflexivity. }
    set (V' := m3mul (m3mul A V) (m3tr A)). set (E' := m3mul (m3mul A E) (m3tr A)).
    replace (m3app (m3sub (m3sub E' m3id) (m3mul V' (hat3 (m3app A w)))) t) with
      (v3sub (v3sub (m3app E' t) t) (m3app V' (v3cross (m3app A w) t))).
    2:{ rewrite <- hat3_cross, <- m3app_mul. generalize (m3mul V' (hat3 (m3app A w))), E'. clear. lin. }
    generalize (m3app A w), V', (m3app E' t), (m3app A (m3app V v)). clear. lin.
Qed.

(** ** isSE3 *)
Lemma isSE3_complete T : rigid T -> isSE3 T = true.
Proof.
  intros (HR & Hb & Hc). unfold isSE3. rewrite (isSO3_complete _ HR). cbn [negb]. rewrite Hb, Hc. cbn.
  rewrite Rltb_ge; auto. lra.
Qed.
Lemma isSE3_iff T : isSE3 T = true <->
  Rabs (m3det (mR T) - 1) <= 1 / 1000000 /\
  vx (mb T) + vy (mb T) + vz (mb T) + (mc T - 1) <= 1 / 1000000.
Proof.
  rewrite <- isSO3_iff. unfold isSE3. destruct (isSO3 (mR T)); cbn [negb].
  - destruct (Rltb _ _) eqn:E; split; intros H; auto; try discriminate.
    + apply Rltb_true in E. lra.
    + apply Rltb_false in E. split; [auto|lra].
  - split; [discriminate | intros [? _]; discriminate].
Qed.
Lemma isSE3_unsound : exists T, isSE3 T = true /\ rotation (mR T) /\ mb T <> v3zero /\ mc T = 1 /\ vx (mb T) = -1000.
Proof.
  exists (mkM4 m3id v3zero (mkV3 (-1000) 0 0) 1). split; [|split; [apply rotation_id|]].
  - apply isSE3_iff. cbn. rewrite m3det_id, Rminus_diag_eq, Rabs_R0 by reflexivity. lra.
  - split; [|split; reflexivity]. cbn. unfold v3zero. intros E; injection E; intros; lra.
Qed.

(** ** distances *)
Lemma dist_trans_sym A B : se3_distance_trans A B = se3_distance_trans B A.
Proof. apply v3norm_sub_sym. Qed.
Lemma dist_trans_triangle A B C : se3_distance_trans A C <= se3_distance_trans A B + se3_distance_trans B C.
Proof.
  unfold se3_distance_trans. eapply Rle_trans; [|apply v3norm_triangle]. right. f_equal.
  generalize (mt A), (mt B), (mt C). lin.
Qed.
Lemma dist_rot_so3 A B : se3_distance_rotation A B = so3_distance (mR A) (mR B).
Proof. reflexivity. Qed.
