(** What solving with a robust function minimises (C89). *)
Require Import Reals List Arith Lia Lra Bool.
From Verif Require Import Lin LinFacts SpecGeom SO3 SE3 Angle AngleProofs Nodes Robust Graph Sums Solve SpecSolve SolveIndex SolveFrame SolveSums SolveBuild SolveProofs Session SessionProofs.
From Verif Require Import Factors SpecFactors FactorsDer Factors3D Factors3DLn FactorsMore FactorsSession SpecFrame FrameFactors FrameSolve SpecSolvable SolvableSession DenseProofs SpecMapping MappingSession LMMapping SpecReorder Reorder ReorderSolve RegistrationMore SpecFixed Fixed SpecTree Tree SpecParts Parts SpecRobustCost.
Import ListNotations.
Local Open Scope R_scope.

(** ** derivatives *)
Lemma dl_sumn n (f : nat -> R -> R) d x : (forall i, (i < n)%nat -> derivable_pt_lim (f i) x (d i)) -> derivable_pt_lim (fun s => sumn n (fun i => f i s)) x (sumn n d).
Proof. induction n as [|n IH]; intros H; cbn [sumn]; [apply dl_const|]. apply dl_plus; auto. Qed.
Lemma dl_glue f g h x a : derivable_pt_lim f x a -> derivable_pt_lim g x a -> f x = g x -> (forall s, h s = f s \/ h s = g s) -> derivable_pt_lim h x a.
Proof.
  intros F G E H eps He. destruct (F eps He) as [d1 F1]. destruct (G eps He) as [d2 G1]. assert (Hd : 0 < Rmin d1 d2) by (apply Rmin_pos; [apply (cond_pos d1)|apply (cond_pos d2)]).
  exists (mkposreal _ Hd). intros s Hs Hl. cbn in Hl. pose proof (Rmin_l d1 d2). pose proof (Rmin_r d1 d2). assert (E0 : h x = f x) by (destruct (H x); congruence).
  destruct (H (x + s)) as [-> | ->]; rewrite E0; [apply F1; auto; lra|]. rewrite E. apply G1; auto. lra.
Qed.
Lemma dl_near_cont f g h x a : derivable_pt_lim h x a -> continuity_pt f x -> (f x < 1 -> (forall s, f s < 1 -> g s = h s) -> derivable_pt_lim g x a) /\ (1 < f x -> (forall s, 1 < f s -> g s = h s) -> derivable_pt_lim g x a).
Proof.
  intros D C. assert (K : forall e, 0 < e -> exists d, 0 < d /\ forall s, Rabs (s - x) < d -> Rabs (f s - f x) < e).
  { intros e He. destruct (C e He) as (d & Hd & Q). exists d. split; auto. intros s Hs. destruct (Req_dec s x) as [->|N]; [rewrite Rminus_diag_eq, Rabs_R0; auto|]. apply (Q s). split; [split; [exact I|auto]|exact Hs]. }
  split; intros Hf Hg.
  - destruct (K (1 - f x) ltac:(lra)) as (d & Hd & Q). apply (dl_near h g x a d Hd); auto. intros s Hs. apply Hg. specialize (Q s Hs). apply Rabs_def2 in Q. lra.
  - destruct (K (f x - 1) ltac:(lra)) as (d & Hd & Q). apply (dl_near h g x a d Hd); auto. intros s Hs. apply Hg. specialize (Q s Hs). apply Rabs_def2 in Q. lra.
Qed.
(** the weight is the derivative of the loss *)
Lemma loss_rate rob c x a : rob <> RANSAC -> (forall s, 0 <= c s) -> derivable_pt_lim c x a -> derivable_pt_lim (fun s => loss rob (c s)) x (robust_eval rob 0 (sqrt (c x)) * a).
Proof.
  intros NR P D. pose proof (P x) as Px. destruct rob; cbn [loss robust_eval]; try congruence.
  - rewrite Rmult_1_l. exact D.
  - assert (L : forall s, c s < 1 -> Rltb (sqrt (c s)) 1 = true) by (intros s H; apply Rltb_iff; rewrite <- sqrt_1; apply sqrt_lt_1_alt; split; auto).
    assert (G : forall s, 1 <= c s -> Rltb (sqrt (c s)) 1 = false) by (intros s H; apply Rltb_niff; rewrite <- sqrt_1; apply sqrt_le_1_alt, H).
    assert (Dg : 0 < c x -> derivable_pt_lim (fun s => 2 * sqrt (c s) - 1) x (1 / sqrt (c x) * a)).
    { intros H. pose proof (sqrt_lt_R0 _ H). eapply dl_eq; [apply dl_minus; [apply dl_mult; [apply dl_const|apply dl_sqrt; eauto]|apply dl_const]|]. cbv beta. field. lra. }
    destruct (Rlt_or_le (c x) 1) as [H|H].
    + rewrite (L x H), Rmult_1_l. apply (proj1 (dl_near_cont c (fun s => if Rltb (sqrt (c s)) 1 then c s else 2 * sqrt (c s) - 1) c x a D (dl_continuity _ _ _ D))); auto. intros s Hs. rewrite (L s Hs). reflexivity.
    + rewrite (G x H). destruct (Rle_lt_or_eq_dec _ _ H) as [H1|H1].
      * apply (proj2 (dl_near_cont c (fun s => if Rltb (sqrt (c s)) 1 then c s else 2 * sqrt (c s) - 1) _ x _ (Dg ltac:(lra)) (dl_continuity _ _ _ D))); auto. intros s Hs. rewrite (G s) by lra. reflexivity.
      * assert (S1 : sqrt (c x) = 1) by (rewrite <- H1; apply sqrt_1). apply (dl_glue c (fun s => 2 * sqrt (c s) - 1)).
        -- eapply dl_eq; [exact D|]. rewrite S1. field.
        -- apply Dg. lra.
        -- rewrite S1. lra.
        -- intros s. destruct (Rltb (sqrt (c s)) 1); auto.
  - rewrite (sqrt_sqrt _ Px). eapply dl_eq; [apply (derivable_pt_lim_comp (fun s => 1 + c s) ln); [apply dl_plus; [apply dl_const|exact D]|apply derivable_pt_lim_ln; lra]|]. field. lra.
  - rewrite (sqrt_sqrt _ Px). eapply dl_eq; [apply dl_div; [exact D|apply dl_plus; [apply dl_const|exact D]|lra]|]. cbv beta. unfold Rsqr. field. lra.
Qed.
(** half squared residuals along a motion *)
Lemma quad_rate_n n W r d : sym_on n W -> (forall i, (i < n)%nat -> derivable_pt_lim (fun s => r s i) 0 (d i)) -> derivable_pt_lim (fun s => 1 / 2 * quad n W (r s) (r s)) 0 (quad n W d (r 0)).
Proof.
  intros Sy D. eapply dl_eq; [apply dl_mult; [apply dl_const|]|].
  - unfold quad. apply (dl_sumn n (fun i s => sumn n (fun j => r s i * W i j * r s j)) (fun i => sumn n (fun j => d i * W i j * r 0 j + r 0 i * W i j * d j))). intros i Hi.
    apply (dl_sumn n (fun j s => r s i * W i j * r s j) (fun j => d i * W i j * r 0 j + r 0 i * W i j * d j)). intros j Hj.
    eapply dl_eq; [apply dl_mult; [apply dl_mult; [apply D, Hi|apply dl_const]|apply D, Hj]|]. cbv beta. ring.
  - cbv beta. assert (E : sumn n (fun i => sumn n (fun j => d i * W i j * r 0 j + r 0 i * W i j * d j)) = quad n W d (r 0) + quad n W (r 0) d) by (unfold quad; rewrite <- sumn_plus; apply sumn_ext; intros; apply sumn_plus). rewrite E, (quad_comm n W (r 0) d Sy). field.
Qed.
Lemma motion_tangents (st : nat -> nval) (d : nat -> nat -> R) (g : nat -> R -> nval) ids : (forall i, tangent (g i) (st i) (d i)) -> tangents (map g ids) (map st ids) (map d ids).
Proof. intros H. induction ids as [|i ids IH]; cbn; constructor; auto. Qed.
Lemma call_rate (st : nat -> nval) (d : nat -> nat -> R) (g : nat -> R -> nval) c : (forall i, tangent (g i) (st i) (d i)) -> call_info c -> (call_factor c <> None -> jacobian_right c st) ->
  derivable_pt_lim (fun s => call_chi2 (fun i => g i s) c) 0
    match call_factor c with Some (cl, ids, W) => quad (fc_dim cl) W (fun i => row_dir (fc_jac cl (map st ids) i) 0 (map st ids) (map d ids)) (fc_res cl (map st ids)) | None => 0 end.
Proof.
  intros T P J. unfold call_info, jacobian_right, call_chi2 in *. destruct (call_factor c) as [[[cl ids] W]|]; [|apply dl_const]. specialize (J ltac:(discriminate)).
  assert (E0 : map (fun i => g i 0) ids = map st ids) by (apply map_ext; intros i; apply (T i)). eapply dl_eq; [apply (quad_rate_n (fc_dim cl) W (fun s => fc_res cl (map (fun i => g i s) ids)) (fun i => row_dir (fc_jac cl (map st ids) i) 0 (map st ids) (map d ids))); [apply P|]|cbv beta; rewrite E0; reflexivity]. intros i Hi. specialize (J _ _ (motion_tangents st d g ids T) i Hi).
  eapply dl_ext; [|exact J]. intros s. cbv beta. rewrite map_map. reflexivity.
Qed.
Lemma chi2_nonneg st c : call_info c -> 0 <= call_chi2 st c.
Proof. unfold call_info, call_chi2. destruct (call_factor c) as [[[cl ids] W]|]; [|lra]. intros [_ P]. specialize (P (fc_res cl (map st ids))). lra. Qed.
Lemma cost_rate rob cs st d g : rob <> RANSAC -> Forall call_info cs -> jacobians_right cs st -> (forall i, tangent (g i) (st i) (d i)) ->
  derivable_pt_lim (fun s => robust_cost rob cs (fun i => g i s)) 0 (lsum cs (pull rob st d)).
Proof.
  intros NR P J T. rewrite Forall_forall in P. unfold robust_cost. apply (dl_lsum cs (fun c s => loss rob (call_chi2 (fun i => g i s) c)) (pull rob st d)). intros c Ic.
  assert (E0 : (fun i => g i 0) = st) by (apply FunctionalExtensionality.functional_extensionality; intros i; apply (T i)).
  eapply dl_eq; [apply (loss_rate rob (fun s => call_chi2 (fun i => g i s) c) 0); [exact NR|intros; apply chi2_nonneg, P, Ic|apply (call_rate st d g c T (P c Ic) (J c Ic))]|].
  cbv beta. rewrite E0. unfold pull. destruct (call_factor c) as [[[cl ids] W]|]; ring.
Qed.
(** every velocity is that of some curve *)
Definition curve (v : nval) (d : nat -> R) : R -> nval :=
  match v with
  | P2 x => fun s => P2 (v3add x (v3scal s (dx3 d)))
  | PL p => fun s => PL (mkV4 (v3add (v4h p) (v3scal s (dx3 d))) (v4l p + s * d 3%nat))
  | _ => fun s => val_update_aux v (fun k => s * d k)
  end.
Lemma curve_tangent v d : (forall T, v = P3 T -> rigid T) -> tangent (curve v d) v d.
Proof.
  intros H. destruct v as [x|T|a b|p|p]; cbn [curve].
  - apply straight2.
  - apply update_aux_tangent, H. reflexivity.
  - apply landmark2_tangent.
  - apply landmark3_tangent.
  - split.
    { f_equal. destruct p as [[a b c] l]. unfold v3add, v3scal. cbn. f_equal; [f_equal|]; ring. }
    exists (fun s => mkV4 (v3add (v4h p) (v3scal s (dx3 d))) (v4l p + s * d 3%nat)). split; [reflexivity|].
    destruct p as [[a b c] l]. unfold v4_derivative, v3_derivative, v3add, v3scal. cbn.
    repeat split; (eapply dl_eq; [apply dl_plus; [apply dl_const|apply dl_mult; [apply dl_id|apply dl_const]]|cbv beta; ring]).
Qed.
Lemma some_motion cs st d : rigid_states st -> (forall i v k, nth_error (nodes_of cs) i = Some (ANCHOR, v) -> d i k = 0) -> motion cs st d (fun i => curve (st i) (d i)).
Proof. intros H A. split; auto. intros i. apply curve_tangent. intros T E. apply (H i T E). Qed.
Lemma balanced_stationary rob cs st : rob <> RANSAC -> Forall call_info cs -> jacobians_right cs st -> rigid_states st -> (balanced rob cs st <-> stationary rob cs st).
Proof.
  intros NR P J Rg. split.
  - intros B d g [T A]. eapply dl_eq; [apply (cost_rate rob cs st d g); auto|apply (B d A)].
  - intros S d A. pose proof (some_motion cs st d Rg A) as M. apply (dl_unique _ _ _ _ (cost_rate rob cs st d _ NR P J (proj1 M)) (S d _ M)).
Qed.
(** ** a Gauss-Newton step goes downhill *)
Lemma inc_rhs rob cs w y : inv rob cs w -> Forall call_info cs -> rob <> RANSAC -> lsum cs (pull rob (state_of w) (inc_of w y)) = gn_rhs w y.
Proof. intros V P NR. rewrite (facts_rhs rob cs w V P NR), lift_facts. apply lsum_ext. intros c _. apply pull_lift. Qed.
Lemma dir_opp row vs ds es off : length ds = length es -> (forall n k, nth n es (fun _ => 0) k = - nth n ds (fun _ => 0) k) -> row_dir row off vs es = - row_dir row off vs ds.
Proof.
  revert vs es off. induction ds as [|d ds IH]; intros [|v vs] [|e es] off L H; cbn in *; try discriminate; try ring. rewrite (IH vs es); [|lia|intros n k; apply (H (S n) k)].
  rewrite (sumn_ext _ _ (fun k => - 1 * (row (off + k)%nat * d k))) by (intros k _; rewrite (H 0%nat k); cbn; ring). rewrite sumn_scal. ring.
Qed.
Lemma pull_opp rob st d e c : (forall i k, e i k = - d i k) -> pull rob st e c = - pull rob st d c.
Proof.
  intros H. unfold pull. destruct (call_factor c) as [[[cl ids] W]|]; [|ring].
  rewrite (quad_ext _ W (fun i => row_dir (fc_jac cl (map st ids) i) 0 (map st ids) (map e ids)) (fc_res cl (map st ids)) (fun i => row_dir (fc_jac cl (map st ids) i) 0 (map st ids) (map d ids) * -1) (fc_res cl (map st ids))); auto; [rewrite quad_scal_l; ring|]. intros i _.
  rewrite (dir_opp _ (map st ids) (map d ids) (map e ids)); [ring|rewrite !map_length; reflexivity|]. intros n k. clear -H. revert ids. induction n as [|n IH]; intros [|i ids]; cbn; try ring; auto.
Qed.
Lemma gn_downhill lin rob cs k la tol s t : exact lin -> rob <> RANSAC -> Forall call_info cs -> inv rob cs (s_w s) -> one_step 0 (s_w s) -> solve lin GN k la tol s = Some t ->
  exists d q, (forall i v k, nth_error (nodes_of cs) i = Some (ANCHOR, v) -> d i k = 0) /\
    (forall i m v, nth_error (nodes_of cs) i = Some (m, v) -> state_of (s_w t) i = match m with ANCHOR => state_of (s_w s) i | _ => val_update (state_of (s_w s) i) (d i) end) /\
    lsum cs (pull rob (state_of (s_w s)) d) = - q /\ 0 <= q /\ (q = 0 -> balanced rob cs (state_of (s_w s))).
Proof.
  intros X NR P V On E. destruct (gn_node lin rob cs k la tol s t X V On E) as (d & Ed & U). set (w := s_w s) in *. pose proof (gd_wf _ (iv_good _ _ _ V)) as Wf.
  exists (inc_of w (fun j => - d j)), (gn_form w d d). split; [intros i v j Ei; apply (anchor_inc rob cs w i v _ j V Ei)|]. split.
  { intros i m v Ei. rewrite (U i m v Ei). destruct m; auto; apply val_update_ext; intros j _; rewrite inc_opp; reflexivity. }
  split. { rewrite <- Ed, <- !(inc_rhs rob cs w _ V P NR), (eq_sym (Rmult_1_l (lsum cs (pull rob (state_of w) (inc_of w d))))), <- Ropp_mult_distr_l_reverse, <- lsum_scal. apply lsum_ext. intros c _. rewrite (pull_opp rob (state_of w) (inc_of w d)); [ring|]. intros i j. apply inc_opp. }
  split. { apply (form_nonneg rob cs w d NR P V). }
  intros Z. apply balanced_rhs; auto. intros y. rewrite Ed. assert (D0 : same_below (g_stateDim (w_graph w)) d (fun _ => 0)) by (intros j Hj; apply (On d); auto; rewrite Z; ring).
  destruct (build_wf s Wf) as (b & _ & B). unfold gn_form. fold w in B. pose proof (normal_matrix s b y d Wf B) as Q. fold w in Q. rewrite <- Q. apply sumn_zero. intros i Hi. apply sumn_zero. intros j Hj. rewrite (D0 j Hj). ring.
Qed.
