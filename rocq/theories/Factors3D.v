(** Factors on 3D poses: derivatives and zero residuals. *)
Require Import Reals List Arith Lia Lra Psatz.
From Verif Require Import Lin LinFacts SO3 SE3 Angle AngleProofs SpecGeom SO3Exp SO3Ln SO3Dist SE3Alg SE3Exp SE3Ln.
From Verif Require Import Nodes NodesProofs Robust Graph Sums Solve Session Factors SpecFactors FactorsDer FactorsPlanar.
Import ListNotations.
Local Open Scope R_scope.

(** ** matrix-valued curves *)
Ltac lc := unfold v3sqn, v3dot, m3trace, m3det, m3frob2, v4dot, v6dot in *; cbn [v3zero v3add v3sub v3opp v3scal v3dot v3sqn v3cross m3id m3zero m3add m3sub m3scal
       m3opp m3mul m3tr m3trace m3det m3app m3appT m3outer m3frob2
       v4zero v4add v4sub v4scal v4dot m4id m4zero m4mul m4add m4sub m4scal m4tr m4app
       v6zero v6add v6sub v6opp v6scal v6dot m6id m6zero m6add m6scal m6mul m6tr m6app hat3
       vx vy vz a00 a01 a02 a10 a11 a12 a20 a21 a22
       mR mt mb mc v4h v4l v6w v6v mTL mTR mBL mBR] in *.
Ltac mder := repeat match goal with |- _ /\ _ => split end; (eapply dl_eq; [der | cbv beta; ring]).
Lemma m3_der_mul F G A B : m3_derivative F 0 A -> m3_derivative G 0 B ->
  m3_derivative (fun s => m3mul (F s) (G s)) 0 (m3add (m3mul A (G 0)) (m3mul (F 0) B)).
Proof.
  intros (?&?&?&?&?&?&?&?&?) (?&?&?&?&?&?&?&?&?). unfold m3_derivative. lc. mder.
Qed.
Lemma m3_der_app F g A b : m3_derivative F 0 A -> v3_derivative g 0 b ->
  v3_derivative (fun s => m3app (F s) (g s)) 0 (v3add (m3app A (g 0)) (m3app (F 0) b)).
Proof. intros (?&?&?&?&?&?&?&?&?) (?&?&?). unfold v3_derivative. lc. mder. Qed.
Lemma m3_der_tr F A : m3_derivative F 0 A -> m3_derivative (fun s => m3tr (F s)) 0 (m3tr A).
Proof. intros (?&?&?&?&?&?&?&?&?). unfold m3_derivative. lc. repeat split; assumption. Qed.
Lemma m3_der_opp F A : m3_derivative F 0 A -> m3_derivative (fun s => m3opp (F s)) 0 (m3opp A).
Proof. intros (?&?&?&?&?&?&?&?&?). unfold m3_derivative. lc. mder. Qed.
Lemma m3_der_const A : m3_derivative (fun _ => A) 0 m3zero.
Proof. unfold m3_derivative. lc. repeat split; apply dl_const. Qed.
Lemma v3_der_const u : v3_derivative (fun _ => u) 0 v3zero.
Proof. unfold v3_derivative. lc. repeat split; apply dl_const. Qed.
Lemma v3_der_add f g a b : v3_derivative f 0 a -> v3_derivative g 0 b -> v3_derivative (fun s => v3add (f s) (g s)) 0 (v3add a b).
Proof. intros (?&?&?) (?&?&?). unfold v3_derivative. lc. mder. Qed.
Lemma v3_der_sub f g a b : v3_derivative f 0 a -> v3_derivative g 0 b -> v3_derivative (fun s => v3sub (f s) (g s)) 0 (v3sub a b).
Proof. intros (?&?&?) (?&?&?). unfold v3_derivative. lc. mder. Qed.
Lemma v3_der_eq f a b : v3_derivative f 0 a -> a = b -> v3_derivative f 0 b. Proof. intros; subst; auto. Qed.
Lemma m3_der_eq f a b : m3_derivative f 0 a -> a = b -> m3_derivative f 0 b. Proof. intros; subst; auto. Qed.
Lemma v3_der_near f g a d : 0 < d -> (forall s, Rabs (s - 0) < d -> g s = f s) -> v3_derivative f 0 a -> v3_derivative g 0 a.
Proof. intros D E (H1 & H2 & H3). repeat split; (eapply dl_near; [exact D | intros; cbv beta; rewrite E; [reflexivity | auto] | assumption]). Qed.

(** the affine part of a pose curve *)
Definition affine (T : M4) : Prop := mb T = v3zero /\ mc T = 1.
Lemma short_affine T : short T -> affine T. Proof. intros (_ & A & B). split; auto. Qed.
Lemma rigid_affine T : rigid T -> affine T. Proof. intros (_ & A & B). split; auto. Qed.
Lemma affine_form T : affine T -> T = se3_of_Rt (mR T) (mt T).
Proof. intros [A B]. destruct T as [r t b c]. cbn in *. subst. reflexivity. Qed.
Lemma rotation_sqn A v : rotation A -> v3sqn (m3app A v) = v3sqn v.
Proof.
  intros [O _]. unfold v3sqn. rewrite v3dot_app, <- m3app_mul. unfold orthogonal in O. rewrite O, m3app_id. reflexivity.
Qed.
Lemma rigid_short T : rigid T -> short T.
Proof. intros (R & A & B). split; [|split; auto]. intros v. rewrite rotation_sqn by auto. lra. Qed.
Lemma short_mul A B : short A -> short B -> short (m4mul A B).
Proof.
  intros (SA & A1 & A2) (SB & B1 & B2). rewrite (affine_form A), (affine_form B) by (split; auto). rewrite mul_of_Rt.
  split; [|split; reflexivity]. intros v. cbn [mR se3_of_Rt]. rewrite m3app_mul. eapply Rle_trans; [apply SA | apply SB].
Qed.
Lemma short_tr A : (forall v, v3sqn (m3app A v) <= v3sqn v) -> forall v, v3sqn (m3app (m3tr A) v) <= v3sqn v.
Proof.
  intros H v. set (u := m3app (m3tr A) v).
  assert (E : v3sqn u = v3dot v (m3app A u)). { unfold v3sqn. unfold u at 1. rewrite v3dot_app, m3tr_tr. reflexivity. }
  pose proof (H u) as Hu. pose proof (v3sqn_nonneg (v3sub v (m3app A u))) as P.
  assert (Q : v3sqn (v3sub v (m3app A u)) = v3sqn v - 2 * v3dot v (m3app A u) + v3sqn (m3app A u)).
  { generalize (m3app A u). intros x. clear. lin. }
  rewrite Q, <- E in P. lra.
Qed.
Lemma short_inv A : short A -> short (se3_inv A).
Proof. intros (S & _ & _). split; [|split; reflexivity]. cbn [se3_inv mR]. apply short_tr. exact S. Qed.
Lemma short_trace T : short T -> m3trace (mR T) <= 3.
Proof.
  intros (S & _ & _). destruct (mR T) as [a b c d e f g h i].
  pose proof (S (mkV3 1 0 0)) as S1. pose proof (S (mkV3 0 1 0)) as S2. pose proof (S (mkV3 0 0 1)) as S3.
  lin_unfold_in S1. lin_unfold_in S2. lin_unfold_in S3. lin_unfold.
  assert (a <= 1) by nra. assert (e <= 1) by nra. assert (i <= 1) by nra. lra.
Qed.
(** velocity blocks of [d]^ T *)
Lemma twist_mul d T : affine T -> m4mul (twist d) T =
  mkM4 (m3mul (hat3 (v6w d)) (mR T)) (v3add (v3cross (v6w d) (mt T)) (v6v d)) v3zero 0.
Proof. intros [A B]. destruct T as [r t b c]. cbn in A, B. subst. destruct d, r, t. unfold twist, hat3. lin. Qed.
Lemma hat3_app w v : m3app (hat3 w) v = v3cross w v. Proof. destruct w, v. unfold hat3. lin. Qed.
Lemma hat3_tr w : m3tr (hat3 w) = m3opp (hat3 w). Proof. destruct w. unfold hat3. lin. Qed.
(** R^T, -R^T t along a curve *)
Lemma inv_R_der F d : affine (F 0) -> m4_derivative F 0 (m4mul (twist d) (F 0)) ->
  m3_derivative (fun s => mR (se3_inv (F s))) 0 (m3opp (m3mul (mR (se3_inv (F 0))) (hat3 (v6w d)))).
Proof.
  intros A. rewrite twist_mul by auto. intros (HR & _). cbn [mR] in HR. cbn [se3_inv mR].
  eapply m3_der_eq; [apply m3_der_tr; exact HR|]. rewrite m3tr_mul, hat3_tr. generalize (m3tr (mR (F 0))), (hat3 (v6w d)). lin.
Qed.
Lemma inv_t_der F d : affine (F 0) -> m4_derivative F 0 (m4mul (twist d) (F 0)) ->
  v3_derivative (fun s => mt (se3_inv (F s))) 0 (v3opp (m3app (mR (se3_inv (F 0))) (v6v d))).
Proof.
  intros A. rewrite twist_mul by auto. intros (HR & HT & _). cbn [mR mt] in HR, HT. cbn [se3_inv mR mt].
  eapply v3_der_eq; [apply m3_der_app; [apply m3_der_opp, m3_der_tr; exact HR | exact HT]|].
  rewrite m3tr_mul, hat3_tr, <- hat3_app. generalize (m3tr (mR (F 0))), (hat3 (v6w d)), (mt (F 0)), (v6v d). lin.
Qed.

(** ** Factor1Pose1Landmark3d *)
Lemma zero3' c vs v : fc_dim c = 3%nat -> (forall i, (i < 3)%nat -> fc_res c vs i = lvec (l3 v) i) -> (zero_residual c vs <-> v = v3zero).
Proof. intros D E. destruct c as [dim all res jac init]. cbn in D. apply zero3; auto. Qed.
Lemma landmark3d_zero obs rev T l : rigid T ->
  (zero_residual (c_landmark3d obs rev) (pair_of rev (P3 T) (L3 l)) <-> l = v3add (m3app (mR T) obs) (mt T)).
Proof.
  intros HT. rewrite (zero3' _ _ (res_landmark3d obs T l)); [|reflexivity | intros; destruct rev; reflexivity].
  unfold res_landmark3d, se3_transform, se3_inv. cbn [mR mt].
  assert (E : v3sub (v3add (m3app (m3tr (mR T)) l) (m3app (m3opp (m3tr (mR T))) (mt T))) obs = v3sub (m3app (m3tr (mR T)) (v3sub l (mt T))) obs).
  { generalize (m3tr (mR T)), (mt T). lin. }
  rewrite E. split.
  - intros H. assert (H1 : m3app (m3tr (mR T)) (v3sub l (mt T)) = obs).
    { revert H. generalize (m3app (m3tr (mR T)) (v3sub l (mt T))). intros [a b c]. destruct obs as [x y z]. lin_unfold. intros Q. injection Q as Q1 Q2 Q3. f_equal; lra. }
    rewrite <- H1, <- m3app_mul, (rotation_rinv _ (proj1 HT)), m3app_id. generalize (mt T). lin.
  - intros ->. replace (v3sub (v3add (m3app (mR T) obs) (mt T)) (mt T)) with (m3app (mR T) obs) by (generalize (m3app (mR T) obs), (mt T); lin).
    rewrite <- m3app_mul. destruct HT as ((O & _) & _). unfold orthogonal in O. rewrite O, m3app_id. lin.
Qed.
Lemma pair_tangents rev p l cs ds : tangents cs (pair_of rev p l) ds ->
  exists cp cl dp dl, cs = (if rev then [cl; cp] else [cp; cl]) /\ ds = (if rev then [dl; dp] else [dp; dl]) /\ tangent cp p dp /\ tangent cl l dl.
Proof.
  destruct rev; intros H; apply tangents_2 in H as (c1 & c2 & d1 & d2 & -> & -> & T1 & T2);
  [exists c2, c1, d2, d1 | exists c1, c2, d1, d2]; auto.
Qed.
Lemma landmark3d_jac obs rev T l : rigid T -> jacobian_at (c_landmark3d obs rev) (pair_of rev (P3 T) (L3 l)).
Proof.
  intros HT cs ds H i Hi.
  apply pair_tangents in H as (cp & cl & dp & dl & -> & -> & (E1 & F & Ec1 & SF & DF) & (E2 & g & Ec2 & Dg)).
  rewrite Ec1 in E1. injection E1 as E1. rewrite Ec2 in E2. injection E2 as E2. subst T l.
  apply rigid_affine in HT. clear SF.
  apply dl_ext with (f := fun s => lvec (l3 (res_landmark3d obs (F s) (g s))) i).
  { intros s. destruct rev; cbn [map]; rewrite Ec1, Ec2; reflexivity. }
  assert (D : v3_derivative (fun s => res_landmark3d obs (F s) (g s)) 0
     (v3add (m3app (mR (se3_inv (F 0))) (v3sub (v3cross (g 0) (v6w (dx6 dp))) (v6v (dx6 dp)))) (m3app (mR (se3_inv (F 0))) (dx3 dl)))).
  { unfold res_landmark3d, se3_transform. eapply v3_der_eq.
    - apply v3_der_sub; [apply v3_der_add; [apply m3_der_app; [apply inv_R_der; [exact HT | exact DF] | exact Dg] | apply inv_t_der; [exact HT | exact DF]] | apply v3_der_const].
    - cbv beta. generalize (mR (se3_inv (F 0))), (g 0), (v6w (dx6 dp)), (v6v (dx6 dp)), (dx3 dl). unfold hat3. lin. }
  destruct D as (D0 & D1 & D2).
  set (Q := mR (se3_inv (F 0))) in *. 
  assert (J : forall i, (i < 3)%nat -> row_dir (fc_jac (c_landmark3d obs rev) (pair_of rev (P3 (F 0)) (L3 (g 0))) i) 0
      (pair_of rev (P3 (F 0)) (L3 (g 0))) (if rev then [dl; dp] else [dp; dl]) =
    lvec (l3 (v3add (m3app Q (v3sub (v3cross (g 0) (v6w (dx6 dp))) (v6v (dx6 dp)))) (m3app Q (dx3 dl)))) i).
  { intros j Hj. destruct rev; cbn [c_landmark3d fc_jac pair_of row_dir nval_dim]; unfold jac_landmark3d, rows4; fold Q; clearbody Q;
    destruct Q, (g 0); destruct (i_lt_3 j Hj) as [->|[->| ->]]; cbn; ring. }
  cbn [fc_dim c_landmark3d] in Hi. rewrite J by auto.
  destruct (i_lt_3 i Hi) as [->|[->| ->]]; assumption.
Qed.

(** ** Factor1Pose1Plane4d *)
Lemma plane4d_res obs rev T p i : fc_res (c_plane4d obs rev) (pair_of rev (P3 T) (PL p)) i = lvec (l4 (res_plane4d (plane_normalize obs) T p)) i.
Proof. destruct rev; reflexivity. Qed.
Lemma v4_zero_iff u v : v4sub u v = v4zero <-> u = v.
Proof.
  split; [|intros ->; lin]. destruct u as [[a b c] d], v as [[a' b' c'] d']. lin_unfold. intros H. injection H as H1 H2 H3 H4.
  apply v4_eq; [apply v3_eq|]; lra.
Qed.
Lemma plane4d_zero obs rev T p :
  zero_residual (c_plane4d obs rev) (pair_of rev (P3 T) (PL p)) <->
  let local := m4app (m4tr T) p in
  (0 <= v4l local /\ local = plane_normalize obs) \/ (v4l local < 0 /\ local = v4scal (-1) (plane_normalize obs)).
Proof.
  assert (Z : zero_residual (c_plane4d obs rev) (pair_of rev (P3 T) (PL p)) <-> res_plane4d (plane_normalize obs) T p = v4zero).
  { unfold zero_residual. split.
    - intros H. pose proof (H 0%nat ltac:(cbn; lia)) as H0. pose proof (H 1%nat ltac:(cbn; lia)) as H1.
      pose proof (H 2%nat ltac:(cbn; lia)) as H2. pose proof (H 3%nat ltac:(cbn; lia)) as H3. rewrite plane4d_res in H0, H1, H2, H3.
      destruct (res_plane4d _ T p) as [[a b c] d]. cbn in H0, H1, H2, H3. subst. reflexivity.
    - intros H i Hi. rewrite plane4d_res, H. cbn [fc_dim c_plane4d] in Hi. destruct (i_lt_4 i Hi) as [->|[->|[->| ->]]]; reflexivity. }
  rewrite Z. clear Z. unfold res_plane4d. cbv zeta. set (o := plane_normalize obs). set (u := m4app (m4tr T) p). clearbody o u.
  destruct (Rltb (v4l u) 0) eqn:E.
  - apply Rltb_iff in E. replace (v4add u o) with (v4sub u (v4scal (-1) o)) by (clear; lin). rewrite v4_zero_iff. intuition lra.
  - apply Rltb_niff in E. rewrite v4_zero_iff. intuition lra.
Qed.
Lemma m4_tr_app_der F g d e : affine (F 0) -> m4_derivative F 0 (m4mul (twist d) (F 0)) -> v4_derivative g 0 e ->
  v4_derivative (fun s => m4app (m4tr (F s)) (g s)) 0
    (mkV4 (v3add (m3app (m3tr (mR (F 0))) (v3cross (v4h (g 0)) (v6w d))) (m3app (m3tr (mR (F 0))) (v4h e)))
          (v3dot (mt (F 0)) (v3cross (v4h (g 0)) (v6w d)) + v3dot (v4h (g 0)) (v6v d) + (v3dot (mt (F 0)) (v4h e) + v4l e))).
Proof.
  intros A HF HG. rewrite twist_mul in HF by auto. destruct A as [A1 A2].
  destruct HF as ((?&?&?&?&?&?&?&?&?) & (?&?&?) & (?&?&?) & ?). destruct HG as ((?&?&?)&?).
  pose proof (f_equal vx A1) as B1. pose proof (f_equal vy A1) as B2. pose proof (f_equal vz A1) as B3. cbn in B1, B2, B3.
  unfold v4_derivative, v3_derivative. lc; lc.
  repeat match goal with |- _ /\ _ => split end; (eapply dl_eq; [der | cbv beta; rewrite ?B1, ?B2, ?B3, ?A2; ring]).
Qed.
Lemma dl_sign f x a (g h : R -> R) b : derivable_pt_lim f x a -> f x <> 0 ->
  (f x < 0 -> derivable_pt_lim g x b) -> (0 < f x -> derivable_pt_lim h x b) ->
  derivable_pt_lim (fun s => if Rltb (f s) 0 then g s else h s) x b.
Proof.
  intros F N G H. destruct (continuity_near f x (Rabs (f x)) (dl_continuity _ _ _ F)) as (d & Hd & Hf). { apply Rabs_pos_lt; auto. }
  destruct (Rlt_dec (f x) 0) as [L|L].
  - apply dl_near with (f := g) (d := d); auto. intros s Hs. specialize (Hf s Hs). rewrite (Rabs_left (f x)) in Hf by auto.
    apply Rabs_def2 in Hf. rewrite (proj2 (Rltb_iff _ _)) by lra. reflexivity.
  - apply dl_near with (f := h) (d := d); auto.
    + intros s Hs. specialize (Hf s Hs). rewrite (Rabs_right (f x)) in Hf by lra.
      apply Rabs_def2 in Hf. rewrite (proj2 (Rltb_niff _ _)) by lra. reflexivity.
    + apply H. lra.
Qed.
Lemma if_v4 (c : bool) (u v : V4) i : lvec (l4 (if c then u else v)) i = if c then lvec (l4 u) i else lvec (l4 v) i.
Proof. destruct c; reflexivity. Qed.
Lemma plane4d_jac obs rev T p : rigid T -> v4l (m4app (m4tr T) p) <> 0 -> jacobian_at (c_plane4d obs rev) (pair_of rev (P3 T) (PL p)).
Proof.
  intros HT N cs ds H i Hi.
  apply pair_tangents in H as (cp & cl & dp & dl & -> & -> & (E1 & F & Ec1 & SF & DF) & (E2 & g & Ec2 & Dg)).
  rewrite Ec1 in E1. injection E1 as E1. rewrite Ec2 in E2. injection E2 as E2. subst T p.
  pose proof (rigid_affine _ HT) as HA. clear SF.
  set (o := plane_normalize obs). set (u := fun s => m4app (m4tr (F s)) (g s)).
  apply dl_ext with (f := fun s => if Rltb (v4l (u s)) 0 then lvec (l4 (v4add (u s) o)) i else lvec (l4 (v4sub (u s) o)) i).
  { intros s. replace (map (fun f => f s) (if rev then [cl; cp] else [cp; cl])) with (pair_of rev (P3 (F s)) (PL (g s))).
    2:{ destruct rev; cbn [map pair_of]; rewrite Ec1, Ec2; reflexivity. }
    rewrite plane4d_res. unfold res_plane4d. apply if_v4. }
  pose proof (m4_tr_app_der F g (dx6 dp) (dx4 dl) HA DF Dg) as D. fold u in D. set (D0 := mkV4 _ _) in D.
  assert (J : forall i, (i < 4)%nat -> row_dir (fc_jac (c_plane4d obs rev) (pair_of rev (P3 (F 0)) (PL (g 0))) i) 0
      (pair_of rev (P3 (F 0)) (PL (g 0))) (if rev then [dl; dp] else [dp; dl]) = lvec (l4 D0) i).
  { clear - HA. intros j Hj. unfold D0. destruct (F 0) as [r t b c]. destruct HA as [A B]. cbn in A, B. subst.
    destruct (g 0) as [[n1 n2 n3] d]. destruct r, t.
    destruct rev; destruct (i_lt_4 j Hj) as [->|[->|[->| ->]]]; unfold v3dot, v3cross; cbn; ring. }
  cbn [fc_dim c_plane4d] in Hi. rewrite J by auto. clear J.
  destruct D as ((A1 & A2 & A3) & A4).
  apply dl_sign with (a := v4l D0); [exact A4 | exact N | intros _ | intros _];
  destruct (i_lt_4 i Hi) as [->|[->|[->| ->]]]; cbn [v4add v4sub l4 l3 app lvec nth v3add v3sub v4h v4l vx vy vz];
  (eapply dl_eq; [first [apply dl_plus | apply dl_minus]; [eassumption | apply dl_const] | cbn [lvec nth l4 l3 app]; ring]).
Qed.

(** ** Factor1PosePoint2Plane *)
Lemma point2plane_zero zx zy n T : zero_residual (c_point2plane zx zy n) [P3 T] <-> v3dot n (v3sub (v3add (m3app (mR T) zx) (mt T)) zy) = 0.
Proof.
  unfold zero_residual. split.
  - intros H. exact (H 0%nat ltac:(cbn; lia)).
  - intros H i Hi. cbn [fc_dim c_point2plane] in Hi. apply i_lt_1 in Hi. subst i. exact H.
Qed.
Lemma point2plane_jac zx zy n T : rigid T -> jacobian_at (c_point2plane zx zy n) [P3 T].
Proof.
  intros HT cs ds H i Hi. apply tangents_1 in H as (c & d & -> & -> & (E0 & F & Ec & SF & DF)).
  rewrite Ec in E0. injection E0 as E0. subst T. apply rigid_affine in HT. rewrite twist_mul in DF by auto. clear SF.
  apply dl_ext with (f := fun s => lvec [res_point2plane zx zy n (F s)] i).
  { intros s. cbn [map]. rewrite Ec. reflexivity. }
  cbn [fc_dim c_point2plane] in Hi. apply i_lt_1 in Hi. subst i.
  destruct DF as (HR & HT' & _). cbn [mR mt] in HR, HT'.
  assert (D : v3_derivative (fun s => v3sub (se3_transform (F s) zx) zy) 0
     (v3add (v3cross (v6w (dx6 d)) (se3_transform (F 0) zx)) (v6v (dx6 d)))).
  { unfold se3_transform. eapply v3_der_eq.
    - apply v3_der_sub; [apply v3_der_add; [apply m3_der_app; [exact HR | apply v3_der_const] | exact HT'] | apply v3_der_const].
    - cbv beta. generalize (mR (F 0)), (mt (F 0)), (v6w (dx6 d)), (v6v (dx6 d)). unfold hat3. lin. }
  destruct D as (D0 & D1 & D2).
  unfold res_point2plane, v3dot. cbn [lvec nth].
  eapply dl_eq; [apply dl_plus; [apply dl_plus|]; (apply dl_mult; [apply dl_const | eassumption])|].
  unfold jac_point2plane. cbn [c_point2plane fc_jac row_dir nval_dim]. unfold jac_point2plane.
  destruct (se3_transform (F 0) zx), n. cbn. ring.
Qed.
