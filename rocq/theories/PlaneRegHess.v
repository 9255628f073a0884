(** PlaneRegistration: the Hessian handed to the optimizer. *)
Require Import Reals List Arith Lia Lra Psatz Bool.
From Verif Require Import Lin LinFacts SO3 SE3 SpecGeom SO3Exp SO3Ln SE3Ops SE3Alg SE3Exp SE3Ln Sums Nodes Robust Graph Solve Session Factors SpecFactors FactorsDer Factors3D Factors3DLn FactorsSession DenseProofs SE3Tangent.
From Verif Require Import Registration SpecRegistration ArunProofs RegistrationMore Optimizer OptimizerProofs Planes SpecPlanes PlanesProofs PlanesEigen PlanesMore PlanesHess SpecPlaneReg PlaneRegProofs PlaneRegMore PlaneRegSolve PlaneRegInit PlaneRegGrad PropSE3 PlaneRegGrad3.
Import ListNotations.
Local Open Scope R_scope.

Lemma sd_plus f g a b : second_derivative f a -> second_derivative g b -> second_derivative (fun s => f s + g s) (a + b).
Proof. intros (f' & A & B) (g' & C & D). exists (fun s => f' s + g' s). split; [intros s; apply dl_plus; auto | apply dl_plus; auto]. Qed.
Lemma sd_ext f g a : (forall s, g s = f s) -> second_derivative f a -> second_derivative g a.
Proof. intros E (f' & A & B). exists f'. split; auto. intros s. eapply dl_ext; [exact E | apply A]. Qed.
Lemma sd_const c : second_derivative (fun _ => c) 0.
Proof. exists (fun _ => 0). split; [intros s; apply dl_const | apply dl_const]. Qed.
Lemma sd_eq f a b : second_derivative f a -> a = b -> second_derivative f b. Proof. intros; subst; auto. Qed.
(** the estimates after the evaluation *)
Definition estimates (eigs : M4 -> eigen4) (tr : list M4) (l : list (nat * plane)) : list V4 := map (fun q => e4_vec (eigs (acc_of tr (snd q)))) l.
Lemma looked_estimates eigs tr l l1 : Forall2 (looked eigs tr) l l1 -> map (fun q : nat * plane => get_plane (snd q)) l1 = map Some (estimates eigs tr l).
Proof. induction 1 as [|q q1 l l1 (A & B) F IH]; cbn [map estimates]; auto. rewrite IH. unfold get_plane. rewrite B. reflexivity. Qed.
Definition entry_hess (Q : M4) (v : V4) (i j : nat) : R := hessian_entry Q (grad_Q Q) v (Nat.min i j) (Nat.max i j).
Definition trans_hess (Q : M4) (v : V4) (d : V3) : R :=
  quad4 (plus_tr (m4add (m4mul (m4mul (twist (mkV6 v3zero d)) (twist (mkV6 v3zero d))) Q) (m4mul (twist (mkV6 v3zero d)) (m4mul Q (m4tr (twist (mkV6 v3zero d))))))) v.
Lemma sum33 (f : nat -> nat -> R) d : sumn 6 (fun i => sumn 6 (fun j => v6_nth (mkV6 v3zero d) i * v6_nth (mkV6 v3zero d) j * f i j)) =
  sumn 3 (fun i => sumn 3 (fun j => v6_nth (mkV6 v3zero d) (3 + i) * v6_nth (mkV6 v3zero d) (3 + j) * f (3 + i)%nat (3 + j)%nat)).
Proof. destruct d as [x y z]. unfold sumn, v6_nth. cbn [nth Nat.add v6w v6v vx vy vz v3zero]. ring. Qed.
Lemma entry_trans Q v d : m4tr Q = Q -> sumn 6 (fun i => sumn 6 (fun j => v6_nth (mkV6 v3zero d) i * v6_nth (mkV6 v3zero d) j * entry_hess Q v i j)) = trans_hess Q v d.
Proof.
  intros S. unfold trans_hess. rewrite <- hessian_translation, sum33 by auto. unfold entry_hess, upper_view. unfold sumn. cbn [Nat.add Nat.leb Nat.ltb andb Nat.min Nat.max]. reflexivity.
Qed.
Lemma sum6_lsum {A} (l : list A) (f : A -> nat -> nat -> R) (c : nat -> nat -> R) :
  sumn 6 (fun i => sumn 6 (fun j => c i j * lsum l (fun a => f a i j))) = lsum l (fun a => sumn 6 (fun i => sumn 6 (fun j => c i j * f a i j))).
Proof.
  induction l as [|a l IH]; [rewrite lsum_nil; apply sumn_zero; intros; apply sumn_zero; intros; rewrite lsum_nil; ring|]. rewrite lsum_cons, <- IH. clear IH.
  rewrite <- sumn_plus. apply sumn_ext. intros i _. rewrite <- sumn_plus. apply sumn_ext. intros j _. rewrite lsum_cons. ring.
Qed.
Lemma sum6_lsum2 {A} (l : list A) ts (w : nat -> R) (f : nat -> A -> nat -> nat -> R) (c : nat -> nat -> R) (H : nat -> nat -> R) :
  (forall i j, (i < 6)%nat -> (j < 6)%nat -> H i j = lsum ts (fun t => w t * lsum l (fun a => f t a i j))) ->
  sumn 6 (fun i => sumn 6 (fun j => c i j * H i j)) = lsum ts (fun t => w t * lsum l (fun a => sumn 6 (fun i => sumn 6 (fun j => c i j * f t a i j)))).
Proof.
  intros E. transitivity (sumn 6 (fun i => sumn 6 (fun j => c i j * lsum ts (fun t => w t * lsum l (fun a => f t a i j))))).
  { apply sumn_ext. intros i Hi. apply sumn_ext. intros j Hj. rewrite E; auto. }
  rewrite (sum6_lsum ts (fun t i j => w t * lsum l (fun a => f t a i j)) c). apply lsum_ext. intros t _. rewrite <- (sum6_lsum l (f t) c).
  rewrite <- sumn_scal. apply sumn_ext. intros i _. rewrite <- sumn_scal. apply sumn_ext. intros j _. ring.
Qed.
(** what the quadratic form of the returned matrix is on translations *)
Lemma hessian_form eigs h r r1 g H n d : Forall2 (same_plane eigs) h (pr_planes r) -> pr_nposes r = n -> Forall hom4 (pr_traj r) ->
  pr_gradient_hessian eigs r = Some (r1, (6%nat, g, H)) ->
  map (fun q : nat * plane => get_plane (snd q)) (pr_planes r1) = map Some (estimates eigs (pr_traj r) (pr_planes r)) /\
  sumn 6 (fun i => sumn 6 (fun j => v6_nth (mkV6 v3zero d) i * v6_nth (mkV6 v3zero d) j * H i j)) =
  lsum (seq 1 (n - 1)) (fun t => 1 / INR (n - 1) * INR t * lsum (pr_planes r) (fun q => trans_hess (nth t (Q_of (pr_traj r) (S_used (snd q))) m4zero) (e4_vec (eigs (acc_of (pr_traj r) (snd q)))) d)).
Proof.
  intros TK NP HM E. unfold pr_gradient_hessian in E. unfold get_current_error in E. destruct (estimate_all eigs (pr_traj r) (pr_planes r)) as [[e l1]|] eqn:EA; [|discriminate]. cbn [option_map fst snd with_planes pr_planes] in E.
  destruct (gh_poses _ _ l1) as [[[g0 h0] l2]|] eqn:EG; [|discriminate]. injection E as <- <- <-. rewrite NP in *.
  pose proof (looked_all eigs _ _ _ _ (like_well _ _ _ TK) EA) as LK. destruct (gh_poses_looked eigs _ n _ _ _ _ _ _ LK EG) as (LK2 & LEN & _ & G).
  split; [cbn; apply looked_estimates; auto|].
  rewrite (sum6_lsum2 (pr_planes r) (seq 1 (n - 1)) (fun t => 1 / INR (n - 1) * INR t) (fun t q i j => entry_hess (nth t (Q_of (pr_traj r) (S_used (snd q))) m4zero) (e4_vec (eigs (acc_of (pr_traj r) (snd q)))) i j) (fun i j => v6_nth (mkV6 v3zero d) i * v6_nth (mkV6 v3zero d) j) h0 G).
  apply lsum_ext. intros t It. apply f_equal. apply lsum_ext. intros q Iq. apply entry_trans.
  pose proof (like_sym _ _ _ TK) as SY. rewrite Forall_forall in SY. specialize (SY q Iq). specialize (LEN t It). rewrite Forall_forall in LEN. specialize (LEN q Iq).
  unfold Q_of in *. rewrite map_length in LEN. rewrite (nth_indep _ m4zero (conj4 m4zero m4zero)) by (rewrite map_length; auto). rewrite (map_nth (fun q0 => conj4 (fst q0) (snd q0)) _ (m4zero, m4zero)). apply m4tr_conj.
  rewrite combine_length in LEN. rewrite Forall_forall in SY. apply SY. destruct (nth t (combine (pr_traj r) (S_used (snd q))) (m4zero, m4zero)) as [a b] eqn:EN. cbn [snd].
  assert (In (a, b) (combine (pr_traj r) (S_used (snd q)))) by (rewrite <- EN; apply nth_In; rewrite combine_length; auto). eapply in_combine_r; eauto.
Qed.
(** ** Two poses *)
Lemma two_second eigs h l tr T d : Forall2 (same_plane eigs) h l -> Forall (fun q : entry => fst (snd q) = 2%nat) h -> Forall hom4 tr -> length tr = 2%nat -> nth_error tr 1 = Some T ->
  second_derivative (fun s => fixed_error (estimates eigs tr l) (sway 2 (mkV6 v3zero d) s tr) h)
    (lsum l (fun q => trans_hess (nth 1 (Q_of tr (S_used (snd q))) m4zero) (e4_vec (eigs (acc_of tr (snd q)))) d)).
Proof.
  intros TK SZ HM LT ET. unfold fixed_error, estimates. induction TK as [|[i [n ops]] [j p] h l (E & L) TK IH]; [cbn [map combine]; rewrite lsum_nil; eapply sd_ext; [intros s; apply lsum_nil | apply sd_const]|]. inversion SZ as [|? ? S1 S2]; subst. cbn [fst snd] in *. subst n.
  rewrite lsum_cons. cbn [map combine]. eapply sd_ext; [intros s; apply lsum_cons|]. apply sd_plus; [|apply IH; auto]. cbn [fst snd].
  destruct (used_nth 2 ops 1 ltac:(lia)) as [pts EL]. set (v := e4_vec _).
  eapply sd_eq; [eapply sd_ext; [|exact (second_along _ _ tr (used 2 ops) 1 T pts v (translation_curve d) ltac:(intros s; split; reflexivity) ET EL HM)]|].
  - intros s. cbv beta. f_equal. rewrite <- (path_two tr T s (mkV6 v3zero d) LT HM ET). unfold se3_update_lhs.
    rewrite exp_translation. destruct tr as [|T0 [|T1 [|]]]; try discriminate. cbn in ET. injection ET as ->. reflexivity.
  - unfold trans_hess. rewrite (like_used _ _ _ _ L). rewrite (nth_error_nth _ _ m4zero (Q_at tr _ 1 T pts ET EL)). reflexivity.
Qed.
Lemma hessian_two k h r r1 g H d : after k h r -> fst h = 2%nat -> pr_gradient_hessian (k_eigs k) r = Some (r1, (6%nat, g, H)) ->
  exists vs, map (fun q : nat * plane => get_plane (snd q)) (pr_planes r1) = map Some vs /\
  second_derivative (fun s => match pr_update_state (fun i => s * v6_nth (mkV6 v3zero d) i) r with Some r' => fixed_error vs (pr_traj r') (snd h) | None => 0 end)
   (sumn 6 (fun i => sumn 6 (fun j => v6_nth (mkV6 v3zero d) i * v6_nth (mkV6 v3zero d) j * H i j))).
Proof.
  intros AF N E. pose proof (gradient_sizes k h r _ _ AF ltac:(lia) E) as SZ. destruct (after_length k h r AF ltac:(lia)) as [NP LT]. destruct (af_tracked _ _ _ AF) as [_ TK]. rewrite N in *.
  pose proof (Forall_inv_tail (af_hom _ _ _ AF)) as HM. destruct (hessian_form _ _ _ _ _ _ _ d TK NP HM E) as [A B].
  destruct (nth_error (pr_traj r) 1) as [T|] eqn:ET; [|apply nth_error_None in ET; lia].
  exists (estimates (k_eigs k) (pr_traj r) (pr_planes r)). split; auto. eapply sd_eq; [eapply sd_ext; [|exact (two_second _ _ _ _ T d TK SZ HM LT ET)]|].
  - intros s. rewrite (update_path 2 r T s) by (auto; lia). cbn [with_traj pr_traj]. rewrite path_two by auto. reflexivity.
  - rewrite B. cbn [Nat.sub seq]. rewrite lsum_cons, lsum_nil. cbn [INR]. field.
Qed.
(** ** Three poses *)
(** plane z = 0, six points seen at time 1 *)
Definition scan_octa : list V3 := [mkV3 2 0 0; mkV3 (-2) 0 0; mkV3 0 2 0; mkV3 0 (-2) 0; mkV3 0 0 1; mkV3 0 0 (-1)].
Definition rise : list reg_op := [RSet 1 3; RNew 0] ++ map (RPush 0 1) scan_octa ++ [RLast m4id].
Definition up : V6 := mkV6 v3zero (mkV3 0 0 1).
Lemma rise_building : Forall building rise. Proof. repeat constructor. Qed.
Lemma rise_history : history rise = (3%nat, [(0%nat, (3%nat, map (fun x => Push x 1) scan_octa))]). Proof. reflexivity. Qed.
Lemma rise_used : used 3 (map (fun x => Push x 1) scan_octa) = [[]; scan_octa; []]. Proof. reflexivity. Qed.
Lemma rise_run k : exists r, reg_run k rise preg_new = Some r /\ pr_traj r = [m4id; m4id; m4id].
Proof.
  destruct (enabled_run k rise) as (r & E & _); [repeat (split; [cbn; auto|]); exact I|]. exists r. split; auto.
  assert (F : Forall (fun o => exists i t x, o = RPush i t x) (map (RPush 0 1) scan_octa)) by (repeat constructor; eauto).
  unfold rise in E. rewrite (pushes_then_last k 1 3 0 _ _ r F ltac:(lia) E). change m4id with (se3_of_Rt m3id v3zero) at 1. rewrite ln_translation. unfold interpolate. cbn [repeat length seq combine map fst snd Nat.leb Nat.ltb andb].
  unfold interpolated. rewrite !exp_translation. cbn [Nat.sub INR]. apply f_equal2; [reflexivity|]. apply f_equal2; [|apply f_equal2; [|reflexivity]]; unfold m4id, se3_of_Rt; f_equal; lin_unfold; f_equal; field.
Qed.
Definition rise_traj (s : R) : list M4 := [m4id; se3_of_Rt m3id (mkV3 0 0 (s / 2)); se3_of_Rt m3id (mkV3 0 0 s)].
Lemma rise_path s : path 3 (se3_update_lhs m4id (v6scal s up)) [m4id; m4id; m4id] = rise_traj s.
Proof.
  assert (UP : se3_update_lhs m4id (v6scal s up) = se3_of_Rt m3id (mkV3 0 0 s)).
  { unfold se3_update_lhs, up. rewrite exp_translation. unfold m4id, se3_of_Rt. lin. }
  rewrite UP. apply nth_error_ext. intros t. destruct t as [|[|[|t]]]; [| | |].
  - rewrite path_nth by (cbn; lia). reflexivity.
  - rewrite path_nth by (cbn; lia). cbn [Nat.eqb Nat.sub]. unfold interpolated. rewrite ln_translation, exp_translation. unfold rise_traj. cbn [nth_error Nat.sub INR]. apply f_equal. unfold se3_of_Rt. f_equal. lin_unfold. f_equal; field.
  - rewrite path_nth by (cbn; lia). reflexivity.
  - transitivity (@None M4); [apply nth_error_None; rewrite path_length; cbn; lia | symmetry; apply nth_error_None; cbn; lia].
Qed.
Lemma rise_cloud u s : cloud_error u (rise_traj s) [[]; scan_octa; []] =
  8 * vx (v4h u) * vx (v4h u) + 8 * vy (v4h u) * vy (v4h u) + 2 * vz (v4h u) * vz (v4h u) + 6 * (v4l u + vz (v4h u) * (s * / 2)) * (v4l u + vz (v4h u) * (s * / 2)).
Proof.
  destruct u as [[x y z] w]. unfold cloud_error, rise_traj, scan_octa, plane_at, move, se3_of_Rt, lsum. cbn [combine fold_right map fst snd]. lin_unfold. field.
Qed.
Lemma rise_0 : rise_traj 0 = [m4id; m4id; m4id].
Proof. unfold rise_traj, se3_of_Rt, m4id, v3zero. replace (0 / 2) with 0 by field. reflexivity. Qed.
Lemma rise_only u : unit4 u -> (forall w, unit4 w -> cloud_error u [m4id; m4id; m4id] [[]; scan_octa; []] <= cloud_error w [m4id; m4id; m4id] [[]; scan_octa; []]) ->
  vx (v4h u) = 0 /\ vy (v4h u) = 0 /\ v4l u = 0 /\ vz (v4h u) * vz (v4h u) = 1.
Proof.
  intros U M. specialize (M (mkV4 (mkV3 0 0 1) 0) ltac:(unfold unit4; lin)). rewrite <- rise_0, !rise_cloud in M. destruct u as [[x y z] w]. unfold unit4, v4dot, v3dot in U. cbn in *.
  rewrite !Rmult_0_l, !Rmult_0_r, !Rplus_0_r in M.
  assert (x * x = 0) by nra. assert (y * y = 0) by nra. assert (w * w = 0) by nra. repeat split; nra.
Qed.
Lemma rise_wrong k : (forall Q, m4tr Q = Q -> exact4 (k_eigs k) Q) -> exists r r1 g H v, reg_run k rise preg_new = Some r /\
  pr_gradient_hessian (k_eigs k) r = Some (r1, (6%nat, g, H)) /\ map (fun q : nat * plane => get_plane (snd q)) (pr_planes r1) = [Some v] /\
  sumn 6 (fun i => sumn 6 (fun j => v6_nth up i * v6_nth up j * H i j)) = 6 /\
  second_derivative (fun s => match pr_update_state (fun i => s * v6_nth up i) r with Some r' => fixed_error [v] (pr_traj r') (planes_of rise) | None => 0 end) 3.
Proof.
  intros X. destruct (rise_run k) as (r & E & TR). assert (OK : Forall reg_ok rise) by (eapply Forall_impl; [|exact rise_building]; intros o; destruct o; cbn; tauto).
  pose proof (after_run k rise r OK E) as AF. pose proof rise_history as HI. rewrite HI in AF. destruct (af_tracked _ _ _ AF) as [NP TK]. cbn [fst snd] in NP, TK.
  destruct (gradient_defined k _ r AF ltac:(cbn; lia) ltac:(repeat constructor)) as (r1 & g & H & EG).
  assert (LT : length (pr_traj r) = 3%nat) by (rewrite TR; reflexivity).
  assert (HM : Forall hom4 [m4id; m4id; m4id]) by (repeat constructor; reflexivity).
  assert (PL : exists p, pr_planes r = [(0%nat, p)] /\ S_used p = map matrix_S [[]; scan_octa; []]).
  { inversion TK as [|a [j p] ? l (EJ & L) TN]; subst. inversion TN; subst. exists p. cbn [fst snd] in *. subst j. split; auto. rewrite (like_used _ _ _ _ L). apply f_equal. exact rise_used. }
  destruct PL as (p & PP & SU). set (v := e4_vec (k_eigs k (acc_of [m4id; m4id; m4id] p))).
  assert (VV : vx (v4h v) = 0 /\ vy (v4h v) = 0 /\ v4l v = 0 /\ vz (v4h v) * vz (v4h v) = 1).
  { assert (AC : acc_of [m4id; m4id; m4id] p = scatter [m4id; m4id; m4id] [[]; scan_octa; []]) by (apply acc_scatter; auto). pose proof (X _ (scatter_sym [m4id; m4id; m4id] [[]; scan_octa; []])) as EX.
    destruct (eigen_least _ _ EX) as [[_ M] QE]. destruct EX as (U & _). rewrite <- AC in *. unfold v. apply rise_only; [exact U|]. intros w W. rewrite <- !quad4_scatter, <- AC. rewrite QE. apply M. auto. }
  destruct VV as (V1 & V2 & V3 & V4). exists r, r1, g, H, v. split; auto. split; auto.
  destruct (hessian_form (k_eigs k) _ r r1 g H 3 (mkV3 0 0 1) TK NP ltac:(rewrite TR; exact HM) EG) as [A B]. split; [rewrite A, PP, TR; reflexivity|]. split.
  - unfold up. rewrite B, TR, PP. cbn [Nat.sub seq]. rewrite !lsum_cons, !lsum_nil. cbn [snd fst]. fold v. rewrite SU. cbn [map Q_of combine fst snd nth].
    unfold Q_of. cbn [map combine fst snd nth]. unfold trans_hess. rewrite !quad_plus_tr, !quad4_add.
    assert (Z : forall D T, quad4 (m4mul (m4mul D D) (conj4 T (matrix_S []))) v + quad4 (m4mul D (m4mul (conj4 T (matrix_S [])) (m4tr D))) v = 0).
    { intros D T. change (matrix_S []) with m4zero. replace (conj4 T m4zero) with m4zero by (unfold conj4; clear; lin). replace (m4mul (m4mul D D) m4zero) with m4zero by (generalize (m4mul D D); clear; lin).
      replace (m4mul D (m4mul m4zero (m4tr D))) with m4zero by (clear; lin). unfold quad4. clear. lin. }
    rewrite Z. clear Z. assert (S1 : conj4 m4id (matrix_S scan_octa) = mkM4 (mkM3 8 0 0 0 8 0 0 0 2) v3zero v3zero 6).
    { unfold conj4, matrix_S, scan_octa, hom, outer4. cbn [fold_left]. lin_unfold. f_equal; try (f_equal; ring); ring. }
    rewrite S1. revert V1 V2 V3 V4. generalize v. intros [[a b c] d]. cbn [v4h v4l vx vy vz]. intros -> -> -> C.
    transitivity ((c * c) * 6); [|rewrite C; ring]. cbn [INR]. unfold quad4, twist, hat3. lin_unfold. field.
  - apply sd_ext with (f := fun s => cloud_error v (rise_traj s) [[]; scan_octa; []]).
    + intros s. rewrite (update_path 3 r m4id s up) by (auto; try lia; rewrite TR; reflexivity). cbn [with_traj pr_traj]. rewrite TR, rise_path. unfold planes_of. rewrite HI. cbn [snd]. unfold fixed_error. cbn [combine]. rewrite lsum_cons, lsum_nil. cbn [fst snd].
      rewrite rise_used. ring.
    + revert V1 V2 V3 V4. generalize v. intros [[a b c] d]. cbn [v4h v4l vx vy vz]. intros -> -> -> C.
      apply sd_ext with (f := fun s => 2 + (3 / 2) * (s * s)).
      * intros s. rewrite rise_cloud. cbn [v4h v4l vx vy vz]. transitivity ((c * c) * (2 + 3 / 2 * (s * s))); [field | rewrite C; ring].
      * exists (fun s => 3 * s). split; [intros s|]; (eapply dl_eq; [der | cbv beta; field]).
Qed.
