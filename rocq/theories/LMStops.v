(** Levenberg-Marquardt comes to an end (C90). *)
Require Import Reals List Arith Lia Lra Bool.
From Verif Require Import Lin LinFacts SpecGeom SO3 SE3 Angle AngleProofs Nodes NodesProofs Robust Graph Sums Solve SpecSolve SolveIndex SolveFrame SolveSums SolveBuild SolveProofs Session SessionProofs.
From Verif Require Import Factors SpecFactors FactorsPlanar FactorsDer Factors3D Factors3DLn FactorsMore FactorsSession SpecFrame FrameFactors FrameSolve Gauss SpecSolvable SolvableSession DenseProofs SpecMapping MappingSession LMMapping SpecReorder Reorder ReorderSolve RegistrationMore SpecFixed Fixed SpecTree Tree SpecParts Parts SpecRobustCost RobustCost SpecLMStops.
Import ListNotations.
Local Open Scope R_scope.
Local Arguments nd : simpl never.
Local Arguments fa : simpl never.

(** ** steps with a large lambda *)
Lemma dl_close f a M : (forall s, 0 < s -> Rabs (f s - s * a) <= s * s * M) -> (forall s, s <= 0 -> f s = s * a) -> derivable_pt_lim f 0 a.
Proof.
  intros H N eps He. assert (M0 : 0 <= M) by (specialize (H 1 ltac:(lra)); pose proof (Rabs_pos (f 1 - 1 * a)); lra).
  assert (D : 0 < eps / (M + 1)) by (apply Rdiv_lt_0_compat; lra). exists (mkposreal _ D). intros h h0 Hh. cbn in Hh. rewrite Rplus_0_l, (N 0) by lra.
  destruct (Rlt_or_le 0 h) as [P|P].
  - rewrite Rabs_pos_eq in Hh by lra. replace ((f h - 0 * a) / h - a) with ((f h - h * a) / h) by (field; auto). unfold Rdiv at 1. rewrite Rabs_mult, (Rabs_pos_eq (/ h)) by (left; apply Rinv_0_lt_compat; auto).
    apply Rle_lt_trans with (h * M).
    + apply Rle_trans with (h * h * M * / h); [apply Rmult_le_compat_r; [left; apply Rinv_0_lt_compat; auto|apply H; auto]|]. right. field. auto.
    + apply Rle_lt_trans with (h * (M + 1)); [apply Rmult_le_compat_l; lra|]. apply (Rmult_lt_compat_r (M + 1)) in Hh; [|lra]. replace (eps / (M + 1) * (M + 1)) with eps in Hh by (field; lra). exact Hh.
  - rewrite (N h) by lra. replace ((h * a - 0 * a) / h - a) with 0 by (field; auto). rewrite Rabs_R0. auto.
Qed.
Lemma sumn_abs n f : Rabs (sumn n f) <= sumn n (fun i => Rabs (f i)).
Proof. induction n as [|n IH]; cbn [sumn]; [rewrite Rabs_R0; lra|]. eapply Rle_trans; [apply Rabs_triang|]. lra. Qed.
Lemma sumn_ge_term n f i : (forall k, 0 <= f k) -> (i < n)%nat -> f i <= sumn n f.
Proof.
  intros P Hi. induction n as [|m IH]; [lia|]. cbn. assert (0 <= sumn m f) by (apply sumn_nonneg; intros; auto). pose proof (P m). destruct (Nat.eq_dec i m) as [->|]; [lra|]. specialize (IH ltac:(lia)). lra.
Qed.

Section Damped.
Variables (n : nat) (L : nat -> nat -> R) (g : nat -> R).
Hypothesis Ps : forall x, 0 <= form n L x x.
(** the step with lambda = 1 / s *)
Definition damped (s : R) : nat -> R := gauss n (fun i j => L i j + if Nat.eqb i j then / s else 0) g.
Lemma damped_eq s i : 0 < s -> (i < n)%nat -> sumn n (fun j => L i j * damped s j) + / s * damped s i = g i.
Proof using Ps.
  intros Hs Hi. assert (Is : 0 < / s) by (apply Rinv_0_lt_compat; auto). pose proof (gauss_exact n _ g (damped_nonsingular n L (/ s) Is Ps) i Hi) as E. fold (damped s) in E. rewrite <- E.
  rewrite (sumn_ext n (fun j => (L i j + (if Nat.eqb i j then / s else 0)) * damped s j) (fun j => L i j * damped s j + (if Nat.eqb i j then / s * damped s j else 0))) by (intros j _; destruct (Nat.eqb i j); ring).
  rewrite sumn_plus. f_equal. rewrite (sumn_single n i); auto; [rewrite Nat.eqb_refl; reflexivity|]. intros k _ N. destruct (Nat.eqb_spec i k); [congruence|reflexivity].
Qed.
Lemma damped_form_eq s y : 0 < s -> form n L y (damped s) + / s * dot n y (damped s) = dot n y g.
Proof using Ps.
  intros Hs. rewrite form_rows. unfold dot. rewrite sumn_mult_l, <- sumn_plus. apply sumn_ext. intros i Hi. rewrite <- (damped_eq s i Hs Hi). ring.
Qed.
Lemma damped_small s i : 0 < s -> (i < n)%nat -> Rabs (damped s i) <= s * (1 + dot n g g).
Proof using Ps.
  intros Hs Hi. set (d := damped s). assert (Is : 0 < / s) by (apply Rinv_0_lt_compat; auto). pose proof (damped_form_eq s d Hs) as E. fold d in E. pose proof (Ps d) as F.
  assert (G0 : 0 <= dot n g g) by (apply sumn_nonneg; intros; nra). assert (D0 : 0 <= dot n d d) by (apply sumn_nonneg; intros; nra).
  assert (C : 2 * dot n d g <= / s * dot n d d + s * dot n g g).
  { unfold dot. rewrite !sumn_mult_l, <- sumn_plus. apply sumn_le. intros j _. assert (Q : 0 <= / s * ((d j - s * g j) * (d j - s * g j))) by (apply Rmult_le_pos; [lra|apply Rle_0_sqr]).
    replace (/ s * ((d j - s * g j) * (d j - s * g j))) with (/ s * (d j * d j) - 2 * (d j * g j) + s * (g j * g j)) in Q by (field; lra). lra. }
  assert (B : / s * dot n d d <= s * dot n g g) by lra. assert (B' : dot n d d <= s * s * dot n g g) by (apply (Rmult_le_compat_l s) in B; [|lra]; rewrite <- !Rmult_assoc, Rinv_r, Rmult_1_l in B by lra; lra).
  assert (U : d i * d i <= dot n d d). { unfold dot. apply (sumn_ge_term n (fun k => d k * d k) i); auto. intros; apply Rle_0_sqr. }
  apply Rsqr_incr_0_var; [|apply Rmult_le_pos; lra]. rewrite <- Rsqr_abs. unfold Rsqr. nra.
Qed.
Definition vel (s : R) (j : nat) : R := if Rlt_dec 0 s then (if Nat.ltb j n then damped s j else s * g j) else s * g j.
Lemma vel_rate j : derivable_pt_lim (fun s => vel s j) 0 (g j).
Proof using Ps.
  unfold vel. destruct (Nat.ltb_spec j n) as [Hj|Hj].
  - apply (dl_close _ _ (sumn n (fun k => Rabs (L j k) * (1 + dot n g g)))).
    + intros s Hs. destruct (Rlt_dec 0 s); [|lra]. pose proof (damped_eq s j Hs Hj) as E. replace (damped s j - s * g j) with (- s * sumn n (fun k => L j k * damped s k)) by (rewrite <- E; field; lra).
      rewrite Rabs_mult, Rabs_Ropp, (Rabs_pos_eq s) by lra. rewrite Rmult_assoc. apply Rmult_le_compat_l; [lra|]. rewrite sumn_mult_l. eapply Rle_trans; [apply sumn_abs|]. apply sumn_le. intros k Hk. rewrite Rabs_mult.
      pose proof (damped_small s k Hs Hk). pose proof (Rabs_pos (L j k)). nra.
    + intros s Hs. destruct (Rlt_dec 0 s); [lra|reflexivity].
  - apply (dl_close _ _ 0); [intros s Hs; destruct (Rlt_dec 0 s); rewrite Rminus_diag_eq, Rabs_R0 by reflexivity; lra|intros s Hs; destruct (Rlt_dec 0 s); reflexivity].
Qed.
End Damped.

(** ** passes from the same states *)
Lemma inc_skel w w' x i k : skel w w' -> inc_of w' x i k = inc_of w x i k.
Proof.
  intros K. unfold inc_of, get_node. rewrite (sk_graph _ _ K). destruct (nth_error _ _) as [l|]; auto. unfold increments, is_anchor. destruct (sk_node _ _ K l) as (_ & _ & M & _). rewrite M. unfold col. rewrite (sk_graph _ _ K), (skel_ndim _ _ K). reflexivity.
Qed.
Lemma inc_skel_fun w w' x : skel w w' -> inc_of w' x = inc_of w x.
Proof. intros K. apply FunctionalExtensionality.functional_extensionality. intros i. apply FunctionalExtensionality.functional_extensionality. intros k. apply inc_skel, K. Qed.
Lemma blind_chi2 st st' c : (forall cl ids W, call_factor c = Some (cl, ids, W) -> blind cl /\ forall i, In i ids -> st' i = st i \/ st' i = val_set (st i)) -> call_chi2 st' c = call_chi2 st c.
Proof.
  intros H. unfold call_chi2. destruct (call_factor c) as [[[cl ids] W]|]; auto. destruct (H cl ids W eq_refl) as [B S]. f_equal. assert (F : Forall2 (fun v v' => v' = v \/ v' = val_set v) (map st ids) (map st' ids)).
  { clear -S. induction ids as [|i ids IH]; cbn; constructor; [apply S; left; reflexivity|]. apply IH. intros j Hj. apply S. right. exact Hj. }
  apply quad_ext; auto; intros i _; apply B; auto.
Qed.
Lemma call_blind rob cs w c cl ids W : inv rob cs w -> In c cs -> call_factor c = Some (cl, ids, W) -> blind cl.
Proof.
  intros V Ic Ec. assert (If : In (cl, ids, W) (flat_map facts cs)) by (apply in_flat_map; exists c; split; auto; unfold facts; rewrite Ec; left; reflexivity). apply In_nth_error in If. destruct If as [k Hk]. apply (tk_blind _ _ _ (iv_tracks _ _ _ V) k cl ids W Hk).
Qed.
Lemma wrapped_cost rob cs w st st' : inv rob cs w -> (forall i, (i < length (nodes_of cs))%nat -> st' i = st i \/ st' i = val_set (st i)) -> lsum cs (call_chi2 st') = lsum cs (call_chi2 st).
Proof.
  intros V H. apply lsum_ext. intros c Ic. apply blind_chi2. intros cl ids W Ec. split; [apply (call_blind rob cs w c cl ids W V Ic Ec)|]. intros i Ii. apply H. apply (ids_below rob cs w c cl ids W V Ic Ec i Ii).
Qed.

(** ** the trial states, as 1 / lambda varies *)
Definition slide (v : nval) (f : R -> nat -> R) (s : R) : nval :=
  match v with
  | P2 x => P2 (v3add x (dx3 (fun k => - f s k)))
  | L2 a b => L2 (a + - f s 0%nat) (b + - f s 1%nat)
  | L3 p => L3 (v3add p (dx3 (fun k => - f s k)))
  | _ => v
  end.
Lemma slide_zero v f s : (forall k, f s k = 0) -> slide v f s = v.
Proof. intros H. destruct v as [[a b c]| |a b|[a b c]|]; cbn; rewrite ?H, ?Ropp_0, ?Rplus_0_r; auto; unfold dx3, v3add; cbn; rewrite ?H, ?Ropp_0, ?Rplus_0_r; reflexivity. Qed.
Lemma slide_update v f s : kind_of v = KP2 \/ kind_of v = KL2 \/ kind_of v = KL3 -> val_update v (fun k => - f s k) = val_set (slide v f s).
Proof. destruct v; cbn; intros [H|[H|H]]; try discriminate; reflexivity. Qed.
Lemma slide_tangent v f (d : nat -> R) : (forall k, f 0 k = 0) -> (forall k, derivable_pt_lim (fun s => f s k) 0 (d k)) -> (forall T, v = P3 T -> rigid T) -> (kind_of v = KP3 \/ kind_of v = KPL -> forall k, d k = 0) ->
  tangent (slide v f) v (fun k => - d k).
Proof.
  intros Z D Rg A. assert (C : forall a k, derivable_pt_lim (fun s => a + - f s k) 0 (- d k)) by (intros a k; eapply dl_eq; [apply dl_plus; [apply dl_const|apply dl_opp, D]|cbv beta; ring]).
  split; [apply slide_zero, Z|]. destruct v as [x|T|a b|p|p]; cbn [slide].
  - exists (fun s => v3add x (dx3 (fun k => - f s k))). split; [reflexivity|]. repeat split; apply C.
  - exists (fun _ => T). split; [reflexivity|]. split; [intros _; apply rigid_short, Rg; reflexivity|]. specialize (A (or_introl eq_refl)).
    replace (m4mul (twist (dx6 (fun k => - d k))) T) with (mkM4 (m3zero) v3zero v3zero 0).
    + repeat split; apply dl_const.
    + unfold twist, dx6, dx3. cbn [v6w v6v vx vy vz]. rewrite !A, !Ropp_0. destruct T as [[? ? ? ? ? ? ? ? ?] [? ? ?] [? ? ?] ?]. unfold m4mul, m3add, m3mul, m3outer, m3app, m3appT, v3add, v3scal, v3dot, v3zero, m3zero. cbn. f_equal; try ring; f_equal; ring.
  - exists (fun s => a + - f s 0%nat), (fun s => b + - f s 1%nat). split; [reflexivity|]. split; apply C.
  - exists (fun s => v3add p (dx3 (fun k => - f s k))). split; [reflexivity|]. repeat split; apply C.
  - exists (fun _ => p). split; [reflexivity|]. specialize (A (or_intror eq_refl)). unfold v4_derivative, v3_derivative, dx4, dx3. cbn. rewrite !A, Ropp_0. repeat split; apply dl_const.
Qed.

Lemma same_forms rob cs w w' : rob <> RANSAC -> Forall call_info cs -> inv rob cs w -> inv rob cs w' -> skel w w' -> (forall i, state_of w' i = state_of w i) ->
  (forall x y, gn_form w' x y = gn_form w x y) /\ forall x, gn_rhs w' x = gn_rhs w x.
Proof.
  intros NR P V V' K St. assert (E : state_of w' = state_of w) by (apply FunctionalExtensionality.functional_extensionality, St). split.
  - intros x y. rewrite (facts_form rob cs w' V' P NR), (facts_form rob cs w V P NR), E, !(inc_skel_fun w w' _ K). reflexivity.
  - intros x. rewrite (facts_rhs rob cs w' V' P NR), (facts_rhs rob cs w V P NR), E, !(inc_skel_fun w w' _ K). reflexivity.
Qed.
Lemma plain_cost cs st : robust_cost QUADRATIC cs st = lsum cs (call_chi2 st).
Proof. reflexivity. Qed.
(** from states with right Jacobians, passes with a large enough lambda are not rejected *)
Lemma threshold cs w : Forall call_info cs -> flat_nodes cs -> inv QUADRATIC cs w -> jacobians_right cs (state_of w) -> rigid_states (state_of w) ->
  exists Lam, 0 < Lam /\ forall lin s t e, exact lin -> skel w (s_w s) -> (forall i, state_of (s_w s) i = state_of w i) -> inv QUADRATIC cs (s_w s) -> Lam <= s_lambda s -> lm_iter lin s = Some (t, e) ->
  e <> Rejected /\ (chi2_of (s_w t) < chi2_of (s_w s) \/ balanced QUADRATIC cs (state_of w)).
Proof.
  intros P Fl V J Rg. assert (NR : QUADRATIC <> RANSAC) by discriminate. pose proof (gd_wf _ (iv_good _ _ _ V)) as Wf. destruct (build_wf (solver_new w) Wf) as (b & _ & B). set (n := g_stateDim (w_graph w)).
  set (L := s_L (build_info_adjacency b)). set (g := s_b (build_info_adjacency b)).
  assert (F : forall u v, gn_form w u v = form n L u v) by (intros u v; unfold gn_form, form, n, L; symmetry; exact (normal_matrix (solver_new w) b u v Wf B)).
  assert (Rh : forall y, gn_rhs w y = dot n y g) by (intros y; unfold gn_rhs; pose proof (normal_rhs (solver_new w) b y Wf B) as Q; cbv zeta in Q; cbn [solver_new s_w] in Q; rewrite <- Q; apply sumn_ext; intros; fold g; ring).
  assert (Ps : forall x, 0 <= form n L x x) by (intros x; rewrite <- F; apply (form_nonneg QUADRATIC cs w x NR P V)).
  (** the step of a pass, and its trial states *)
  assert (Pass : forall lin s t e, exact lin -> skel w (s_w s) -> (forall i, state_of (s_w s) i = state_of w i) -> inv QUADRATIC cs (s_w s) -> 0 < s_lambda s -> lm_iter lin s = Some (t, e) ->
    exists d w3, (forall y, form n L y d + s_lambda s * dot n y d = dot n y g) /\ e = lm_decide (Some (chi2_of (s_w s))) (Some (chi2_of w3)) (s_tol s) /\ chi2_of (s_w s) = lsum cs (call_chi2 (state_of w)) /\ (e <> Rejected -> chi2_of (s_w t) = chi2_of w3) /\
      forall u, same_below n d u -> chi2_of w3 = lsum cs (call_chi2 (fun i => slide (state_of w i) (fun _ => inc_of w u i) 0))).
  { intros lin s t e X K St Vs La It. destruct (lm_node lin QUADRATIC cs s t e X NR P Vs La It) as (d & w3 & Ed & V3 & Vt & _ & U & De & Ut). destruct (same_forms QUADRATIC cs w (s_w s) NR P V Vs K St) as [Ff Fr].
    exists d, w3. split. { intros y. rewrite <- F, <- Rh, <- Ff, <- Fr, <- Ed. unfold n. rewrite (sk_graph _ _ K). reflexivity. }
    split; auto. split. { rewrite (tracks_chi2 _ _ _ (iv_tracks _ _ _ Vs)). f_equal. f_equal. apply FunctionalExtensionality.functional_extensionality, St. }
    split. { intros NRj. rewrite (tracks_chi2 _ _ _ (iv_tracks _ _ _ V3)), (tracks_chi2 _ _ _ (iv_tracks _ _ _ Vt)). apply (wrapped_cost QUADRATIC cs w); auto. intros i Hi. left. destruct (nth_error (nodes_of cs) i) as [[m v]|] eqn:Ei; [|apply nth_error_None in Ei; lia]. rewrite (Ut i m v Ei). destruct e; congruence. }
    intros u Su. rewrite (tracks_chi2 _ _ _ (iv_tracks _ _ _ V3)). apply (wrapped_cost QUADRATIC cs w); auto. intros i Hi. destruct (nth_error (nodes_of cs) i) as [[m v]|] eqn:Ei; [|apply nth_error_None in Ei; lia]. rewrite (U i m v Ei), St.
    destruct (mode_of QUADRATIC cs w i m v V Ei) as (l & G & M & _ & _ & Kd).
    assert (NA : m <> ANCHOR -> val_update (state_of w i) (fun j => - inc_of (s_w s) d i j) = val_set (slide (state_of w i) (fun _ => inc_of w u i) 0)).
    { intros NA. rewrite <- slide_update by (rewrite Kd; apply (Fl i m v Ei NA)). apply val_update_ext. intros k Hk. rewrite (inc_skel w (s_w s) d i k K), (below_inc QUADRATIC cs w V d u i k Su Hi Hk). reflexivity. }
    destruct m; [right; apply NA; discriminate| |right; apply NA; discriminate]. left. symmetry. apply slide_zero. intros k. apply (anchor_inc QUADRATIC cs w i v u k V Ei). }
  assert (G0 : 0 <= dot n g g) by (apply sumn_nonneg; intros; apply Rle_0_sqr). destruct (Rle_lt_or_eq_dec _ _ G0) as [Hg|Hg].
  - set (q := fun i s => inc_of w (vel n L g s) i).
    assert (Rt : forall i k, derivable_pt_lim (fun s => q i s k) 0 (inc_of w g i k)) by (intros i k; unfold q, inc_of; destruct (get_node w i) as [l|]; [|apply dl_const]; unfold increments; destruct (is_anchor _); [apply dl_const|apply vel_rate, Ps]).
    assert (Q0 : forall i k, q i 0 k = 0) by (intros i k; unfold q, inc_of; destruct (get_node w i) as [l|]; auto; unfold increments; destruct (is_anchor _); auto; unfold vel; destruct (Rlt_dec 0 0); [lra|ring]).
    assert (Tg : forall i, tangent (slide (state_of w i) (q i)) (state_of w i) (fun k => - inc_of w g i k)).
    { intros i. apply slide_tangent; auto. { intros T E. apply (Rg i T E). } intros Hk k. destruct (nth_error (nodes_of cs) i) as [[m v]|] eqn:Ei.
      - destruct (mode_of QUADRATIC cs w i m v V Ei) as (l & G & M & _ & _ & Kd). rewrite Kd in Hk. destruct m; [exfalso| |exfalso]; try (destruct (Fl i _ v Ei ltac:(discriminate)) as [Q|[Q|Q]]; rewrite Q in Hk; destruct Hk; discriminate). apply (anchor_inc QUADRATIC cs w i v g k V Ei).
      - unfold inc_of, get_node. replace (nth_error (g_nodes (w_graph w)) i) with (@None loc); auto. symmetry. apply nth_error_None. apply nth_error_None in Ei. rewrite (tk_len _ _ _ (iv_tracks _ _ _ V)), session_len. exact Ei. }
    pose proof (cost_rate QUADRATIC cs (state_of w) _ _ NR P J Tg) as D. assert (Ep : lsum cs (pull QUADRATIC (state_of w) (fun i k => - inc_of w g i k)) = - dot n g g).
    { rewrite <- Rh, <- (inc_rhs QUADRATIC cs w g V P NR), (eq_sym (Rmult_1_l (lsum cs (pull QUADRATIC (state_of w) (inc_of w g))))), <- Ropp_mult_distr_l_reverse, <- lsum_scal. apply lsum_ext. intros c _. rewrite (pull_opp QUADRATIC (state_of w) (inc_of w g)); [ring|]. reflexivity. }
    rewrite Ep in D. destruct (D (dot n g g) Hg) as [e He]. pose proof (cond_pos e) as Pe. assert (Ie : 0 < / e) by (apply Rinv_0_lt_compat; auto).
    exists (/ e + 1). split; [lra|]. intros lin s t x X K St Vs Hl It. assert (La : 0 < s_lambda s) by lra. destruct (Pass lin s t x X K St Vs La It) as (d & w3 & Ed & De & Ec & Et & E3).
    set (a := / s_lambda s). assert (Ha : 0 < a < e). { split; [apply Rinv_0_lt_compat; auto|]. rewrite <- (Rinv_inv e). apply Rinv_lt_contravar; [apply Rmult_lt_0_compat; lra|lra]. }
    assert (Sd : same_below n d (vel n L g a)).
    { intros j Hj. unfold vel. destruct (Rlt_dec 0 a); [|lra]. destruct (Nat.ltb_spec j n); [|lia]. apply (step_unique (s_lambda s) (solver_new w) d (damped n L g a) Wf (damped_one QUADRATIC cs NR P _ _ V La)); auto. cbn [solver_new s_w]. fold n. intros y. rewrite !F, Ed, <- (damped_form_eq n L g Ps a y (proj1 Ha)). unfold a. rewrite Rinv_inv. reflexivity. }
    specialize (E3 _ Sd). specialize (He a (Rgt_not_eq _ _ (proj1 Ha)) ltac:(rewrite Rabs_pos_eq; lra)). rewrite Rplus_0_l in He. cbv beta in He. rewrite !plain_cost in He. replace (fun i => slide (state_of w i) (q i) 0) with (state_of w) in He by (apply FunctionalExtensionality.functional_extensionality; intros i; symmetry; apply (Tg i)).
    change (fun i => slide (state_of w i) (q i) a) with (fun i => slide (state_of w i) (fun _ => inc_of w (vel n L g a) i) 0) in He. rewrite <- E3, <- Ec in He. apply Rabs_def2 in He. destruct He as [He _].
    assert (H : (chi2_of w3 - chi2_of (s_w s)) / a < 0) by lra. apply (Rmult_lt_compat_r a) in H; [|lra]. unfold Rdiv in H. rewrite Rmult_assoc, Rinv_l in H by lra.
    assert (Nx : x <> Rejected) by (rewrite De; unfold lm_decide; assert (Rl : Rltb (chi2_of (s_w s) - chi2_of w3) 0 = false) by (apply Rltb_niff; lra); rewrite Rl; destruct (Rltb _ (s_tol s)); intros Q; discriminate Q).
    split; auto. left. rewrite (Et Nx). lra.
  - exists 1. split; [lra|]. intros lin s t x X K St Vs Hl It. assert (La : 0 < s_lambda s) by lra. destruct (Pass lin s t x X K St Vs La It) as (d & w3 & Ed & De & Ec & Et & E3).
    assert (Z : same_below n d (fun _ => 0)).
    { intros j Hj. apply (damped_one QUADRATIC cs NR P (s_lambda s) w V La); auto. fold n. rewrite F, Ed. apply sumn_zero. intros k Hk. pose proof (sumn_sq_zero n g (eq_sym Hg) k Hk) as Q. assert (g k = 0) as -> by nra. ring. }
    specialize (E3 _ Z). assert (E0 : chi2_of w3 = chi2_of (s_w s)). { rewrite E3, Ec. f_equal. f_equal. apply FunctionalExtensionality.functional_extensionality. intros i. apply slide_zero. intros k. unfold inc_of. destruct (get_node w i); auto. unfold increments. destruct (is_anchor _); reflexivity. }
    split. { rewrite De. unfold lm_decide. rewrite E0. assert (Rl : Rltb (chi2_of (s_w s) - chi2_of (s_w s)) 0 = false) by (apply Rltb_niff; lra). rewrite Rl. destruct (Rltb _ (s_tol s)); intros Q; discriminate Q. }
    right. apply balanced_rhs; auto. intros y. rewrite Rh. apply sumn_zero. intros k Hk. pose proof (sumn_sq_zero n g (eq_sym Hg) k Hk) as Q. assert (g k = 0) as -> by nra. ring.
Qed.

(** ** runs of passes *)
Lemma rejected_lambda lin s t : lm_iter lin s = Some (t, Rejected) -> s_lambda t = s_lambda s * 2.
Proof.
  unfold lm_iter. destruct (optimize_gauss_newton lin true s) as [s1|] eqn:E; [|discriminate]. destruct (gn_frame _ _ _ _ E) as (_ & _ & L1 & _). rewrite chi2_false. destruct (chi2 true _) as [w4 x].
  destruct (Rltb _ 0); [|destruct (Rltb _ _)]; intros X; try discriminate; injection X as <-. cbn. rewrite L1. reflexivity.
Qed.
(** from [s] the loop reports convergence, after the same passes whatever the number of iterations allowed, if that is large enough *)
Definition stops (lin : linear_solver) (s : solver) : Prop :=
  exists K t j, (0 < j <= K)%nat /\ forall fuel iter k, (K <= fuel)%nat -> (iter + K <= k)%nat -> lm_loop lin fuel iter k s = Some (t, (iter + j)%nat).
Lemma stops_now lin s t : lm_iter lin s = Some (t, Converged) -> stops lin s.
Proof. intros E. exists 1%nat, t, 1%nat. split; [lia|]. intros [|fuel] iter k Hf Hk; [lia|]. cbn [lm_loop]. rewrite E, Nat.add_1_r. reflexivity. Qed.
Lemma stops_next lin s t e : lm_iter lin s = Some (t, e) -> e <> Converged -> stops lin t -> stops lin s.
Proof.
  intros E N (K & u & j & Hj & H). exists (S K), u, (S j). split; [lia|]. intros [|fuel] iter k Hf Hk; [lia|]. cbn [lm_loop]. rewrite E.
  assert (Lt : (S iter <? k)%nat = true) by (apply Nat.ltb_lt; lia). destruct e; try congruence; rewrite Lt, (H fuel (S iter) k) by lia; f_equal; f_equal; lia.
Qed.
Section Stops.
Variables (lin : linear_solver) (cs : list pycall) (st0 : nat -> nval) (C0 tol : R).
Hypothesis (X : exact lin) (P : Forall call_info cs) (Fl : flat_nodes cs) (Ht : 0 < tol) (Rg : rigid_states st0).
Hypothesis J : forall st, rearranged cs st0 st -> lsum cs (call_chi2 st) <= C0 -> jacobians_right cs st.
Record ready (s : solver) : Prop := {
  rd_inv : inv QUADRATIC cs (s_w s);
  rd_re : rearranged cs st0 (state_of (s_w s));
  rd_chi2 : chi2_of (s_w s) <= C0;
  rd_lambda : 0 < s_lambda s;
  rd_tol : s_tol s = tol }.
Lemma outside rob w i : inv rob cs w -> nth_error (nodes_of cs) i = None -> state_of w i = P2 v3zero.
Proof using.
  intros V E. unfold state_of, get_node. replace (nth_error (g_nodes (w_graph w)) i) with (@None loc); auto. symmetry. apply nth_error_None. apply nth_error_None in E. rewrite (tk_len _ _ _ (iv_tracks _ _ _ V)), session_len. exact E.
Qed.
Lemma ready_rigid s : ready s -> rigid_states (state_of (s_w s)).
Proof using Fl Rg.
  intros H i T E. destruct (nth_error (nodes_of cs) i) as [[m v]|] eqn:Ei; [|rewrite (outside QUADRATIC _ i (rd_inv _ H) Ei) in E; discriminate].
  destruct (rd_re _ H i m v Ei) as [K A]. destruct (mode_of QUADRATIC cs _ i m v (rd_inv _ H) Ei) as (l & _ & _ & _ & _ & Kd). rewrite E in Kd. destruct m; [| apply (Rg i); rewrite <- A; auto |];
  (destruct (Fl i _ v Ei ltac:(discriminate)) as [Q|[Q|Q]]; rewrite Q in Kd; discriminate).
Qed.
Lemma ready_next s t e : ready s -> lm_iter lin s = Some (t, e) -> ready t /\ skel (s_w s) (s_w t) /\
  (e = Rejected -> forall i m v, nth_error (nodes_of cs) i = Some (m, v) -> state_of (s_w t) i = match m with ANCHOR => state_of (s_w s) i | _ => val_set (state_of (s_w s) i) end) /\ (e = Accepted -> chi2_of (s_w t) <= chi2_of (s_w s) - tol) /\ chi2_of (s_w t) <= chi2_of (s_w s).
Proof using X P.
  intros H It. pose proof (rd_inv _ H) as V. destruct (lm_node lin QUADRATIC cs s t e X ltac:(discriminate) P V (rd_lambda _ H) It) as (d & w3 & _ & V3 & Vt & Lt & U & _ & Ut). destruct (lm_iter_frame _ _ _ _ It) as (K & _ & Tt).
  assert (Va : valid_factors (s_w s)) by (intros l Il; apply (wf_factors _ (gd_wf _ (iv_good _ _ _ V)) l Il)). destruct (lm_iter_chi2 lin s t e Va (tracks_wrap _ _ _ (iv_tracks _ _ _ V)) It) as (Le & _ & _ & _ & Ac).
  split; [|split; auto; split; [intros -> i m v Ei; apply (Ut i m v Ei)|split; auto; intros Q; specialize (Ac Q); rewrite (rd_tol _ H) in Ac; lra]]. constructor; auto.
  - intros i m v Ei. destruct (rd_re _ H i m v Ei) as [Kd A]. destruct (mode_of QUADRATIC cs _ i m v V Ei) as (l & _ & _ & _ & _ & K1). destruct (mode_of QUADRATIC cs _ i m v Vt Ei) as (l' & _ & _ & _ & _ & K2). split; [congruence|]. intros ->.
    rewrite (Ut i _ v Ei), (U i _ v Ei). destruct e; apply A; reflexivity.
  - pose proof (rd_chi2 _ H). lra.
  - rewrite Tt. apply (rd_tol _ H).
Qed.
(** rejections from wrapped states change lambda only *)
Lemma rejections s : ready s -> (forall i m v, nth_error (nodes_of cs) i = Some (m, v) -> m <> ANCHOR -> val_set (state_of (s_w s) i) = state_of (s_w s) i) -> (forall t, ready t -> chi2_of (s_w t) <= chi2_of (s_w s) - tol -> stops lin t) -> stops lin s.
Proof using X P Fl Rg J.
  intros H Wr Next. destruct (threshold cs (s_w s) P Fl (rd_inv _ H)) as (Lam & HL & Th).
  { apply J; [apply (rd_re _ H)|]. rewrite <- (tracks_chi2 _ _ _ (iv_tracks _ _ _ (rd_inv _ H))). apply (rd_chi2 _ H). }
  { apply ready_rigid, H. }
  assert (Go : forall m u, ready u -> skel (s_w s) (s_w u) -> (forall i, state_of (s_w u) i = state_of (s_w s) i) -> Lam <= s_lambda u * 2 ^ m -> stops lin u).
  { induction m as [|m IH]; intros u Hu K St Hl; destruct (lm_iter_wf lin u (gd_wf _ (iv_good _ _ _ (rd_inv _ Hu)))) as (t & e & It); destruct (ready_next u t e Hu It) as (Ht' & Kt & Rj & Ac & _);
    assert (C : chi2_of (s_w u) = chi2_of (s_w s)) by (rewrite (tracks_chi2 _ _ _ (iv_tracks _ _ _ (rd_inv _ Hu))), (tracks_chi2 _ _ _ (iv_tracks _ _ _ (rd_inv _ H))); f_equal; f_equal; apply FunctionalExtensionality.functional_extensionality, St);
    rewrite C in Ac; (destruct e; [|apply (stops_now lin u t It)|apply (stops_next lin u t Accepted It); [discriminate|apply Next; auto]]).
    - exfalso. cbn in Hl. rewrite Rmult_1_r in Hl. apply (proj1 (Th lin u t Rejected X K St (rd_inv _ Hu) Hl It)). reflexivity.
    - apply (stops_next lin u t Rejected It); [discriminate|]. apply IH; auto; [eapply skel_trans; eauto| |rewrite (rejected_lambda _ _ _ It); cbn [pow] in Hl; lra].
      intros i. destruct (nth_error (nodes_of cs) i) as [[n v]|] eqn:Ei; [|rewrite (outside QUADRATIC _ i (rd_inv _ Ht') Ei), (outside QUADRATIC _ i (rd_inv _ H) Ei); reflexivity].
      rewrite (Rj eq_refl i n v Ei), St. destruct n; auto; apply (Wr i _ v Ei); discriminate. }
  destruct (Pow_x_infinity 2 ltac:(rewrite Rabs_pos_eq; lra) (Lam / s_lambda s)) as [m Hm]. specialize (Hm m (le_n m)). rewrite Rabs_pos_eq in Hm by (apply pow_le; lra). pose proof (rd_lambda _ H) as La.
  apply (Go m s H (skel_refl _)); auto. apply Rge_le in Hm. apply (Rmult_le_compat_l (s_lambda s)) in Hm; [|lra]. replace (s_lambda s * (Lam / s_lambda s)) with Lam in Hm by (field; lra). exact Hm.
Qed.
Lemma always_stops N : forall s, ready s -> chi2_of (s_w s) < INR N * tol -> stops lin s.
Proof using X P Fl Rg J Ht.
  induction N as [|N IH]; intros s H C.
  - exfalso. cbn in C. rewrite Rmult_0_l, (tracks_chi2 _ _ _ (iv_tracks _ _ _ (rd_inv _ H))) in C. assert (0 <= lsum cs (call_chi2 (state_of (s_w s)))); [|lra]. apply lsum_nonneg. intros c Ic. rewrite Forall_forall in P. apply chi2_nonneg, P, Ic.
  - assert (Nx : forall t, ready t -> chi2_of (s_w t) <= chi2_of (s_w s) - tol -> stops lin t) by (intros t Hr Hc; apply IH; auto; rewrite S_INR in C; lra).
    destruct (lm_iter_wf lin s (gd_wf _ (iv_good _ _ _ (rd_inv _ H)))) as (t & e & It). destruct (ready_next s t e H It) as (Hr & Kt & Rj & Ac & Le).
    destruct e; [|apply (stops_now lin s t It)|apply (stops_next lin s t Accepted It); [discriminate|apply Nx; auto]].
    apply (stops_next lin s t Rejected It); [discriminate|]. apply rejections; auto.
    + intros i m v Ei NA. rewrite (Rj eq_refl i m v Ei). destruct m; [apply val_set_set|congruence|apply val_set_set].
    + intros u Hu Hc. apply Nx; auto. lra.
Qed.
End Stops.
