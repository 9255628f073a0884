(** Levenberg-Marquardt on sessions that estimate 3D landmarks from anchored poses (C83). *)
Require Import Reals List Arith Lia Lra Psatz Bool.
From Verif Require Import Lin LinFacts SpecGeom SO3 SE3 SO3Exp SE3Alg AngleProofs Nodes NodesProofs Robust RobustProofs Graph GraphProofs Sums Solve SpecSolve SolveIndex SolveFrame SolveSums SolveBuild SolveProofs Session SessionProofs.
From Verif Require Import Factors SpecFactors FactorsPlanar FactorsSession SpecFrame FrameFactors FrameSolve FrameSession SpecSolvable SolvableFactors SolvableSession DenseProofs SpecMapping MappingSession SpecLMMapping.
Import ListNotations.
Local Open Scope R_scope.
Local Arguments nd : simpl never.
Local Arguments fa : simpl never.

(** ** a pass of the loop: the trial state, the comparison, what is kept, the next lambda *)
Lemma lm_iter_parts lin s s' e : wf (s_w s) -> lm_iter lin s = Some (s', e) ->
  exists s1 w3, optimize_gauss_newton lin true s = Some s1 /\ skel (s_w s) w3 /\ kinds_kept (s_w s) w3 /\
    (forall l, In l (g_active (w_graph (s_w s))) ->
       nst (n_data (nd w3 l)) = val_update (nst (n_data (nd (s_w s) l))) (increments (s_w s) (fun i => - s_dx s1 i) l)) /\
    (forall l, ~ In l (g_active (w_graph (s_w s))) -> nd w3 l = nd (s_w s) l) /\
    e = lm_decide (Some (chi2_of (s_w s))) (Some (chi2_of w3)) (s_tol s) /\
    (e <> Rejected -> forall l, nst (n_data (nd (s_w s') l)) = nst (n_data (nd w3 l))) /\
    (e = Converged -> s_lambda s' = s_lambda s) /\
    (e = Accepted -> let n := g_stateDim (w_graph (s_w s)) in s_lambda s' = lambda_update (s_lambda s) (chi2_of (s_w s) - chi2_of w3) (dot n (s_dx s1) (s_b s1) - 1 / 2 * form n (s_L s1) (s_dx s1) (s_dx s1))).
Proof.
  intros H. assert (V : valid_factors (s_w s)) by (intros l I; apply (wf_factors _ H l I)).
  unfold lm_iter. destruct (optimize_gauss_newton lin true s) as [s1|] eqn:E; [|discriminate].
  destruct (gn_frame _ _ _ _ E) as (S1 & N1 & L1 & T1). rewrite chi2_false. rewrite (gn_chi2 _ _ _ _ V E). cbn [with_world s_w update_nodes].
  set (w2 := sync_aux (s_w s1)). destruct (sync_aux_spec (s_w s1)) as (S2 & F2 & N2). fold w2 in S2, F2, N2.
  change (s_dx (with_world s1 w2)) with (s_dx s1).
  set (w3 := update_nodes_w w2 (s_dx s1)). destruct (update_nodes_spec w2 (s_dx s1)) as (S3 & F3 & A3 & N3 & _). fold w3 in S3, F3, A3, N3.
  assert (SK2 : skel (s_w s) w2) by (eapply skel_trans; eauto).
  assert (SK3 : skel (s_w s) w3) by (eapply skel_trans; [|exact S3]; auto).
  assert (V3 : valid_factors w3) by (intros l; rewrite (sk_graph _ _ SK3), (sk_flen _ _ SK3); apply V).
  rewrite (chi2_true _ V3). pose proof (skel_chi2 w3) as S4. destruct (chi2_world_spec w3) as (N4 & _). set (w4 := fold_left _ _ w3) in *.
  assert (SK : skel (s_w s) w4) by (eapply skel_trans; eauto).
  assert (U : forall l, In l (g_active (w_graph (s_w s))) ->
     nst (n_data (nd w3 l)) = val_update (nst (n_data (nd (s_w s) l))) (increments (s_w s) (fun i => - s_dx s1 i) l)).
  { intros l I. pose proof I as I'. apply In_nth_error in I'. destruct I' as [m Hm]. rewrite <- (sk_graph _ _ SK2) in Hm.
    unfold w3. rewrite (gn_updates w2 (s_dx s1) m l (skel_wf _ _ SK2 H) Hm). cbn [nst nax].
    assert (X : nd w2 l = node_set_data (node_bookkeep (n_data (nd (s_w s) l))) (nd (s_w s) l)).
    { rewrite N2, (nd_same (s_w s1) (s_w s) l N1), (sk_graph _ _ S1), (sk_nlen _ _ S1). destruct (wf_active _ H l I) as [L _].
      apply mem_In in I. apply Nat.ltb_lt in L. rewrite I, L. reflexivity. }
    rewrite X. cbn. f_equal. unfold increments. rewrite (sk_graph _ _ SK2), (skel_col _ _ SK2).
    unfold is_anchor. destruct (sk_node _ _ SK2 l) as (_ & _ & -> & _). reflexivity. }
  assert (N30 : forall l, ~ In l (g_active (w_graph (s_w s))) -> nd w3 l = nd (s_w s) l).
  { intros l I. rewrite N3 by (rewrite (sk_graph _ _ SK2); auto). rewrite N2, (nd_same (s_w s1) (s_w s) l N1), (sk_graph _ _ S1).
    destruct (mem l _) eqn:M; auto. apply mem_In in M. contradiction. }
  assert (KK : kinds_kept (s_w s) w3).
  { apply (kk_trans _ w2); [apply (sk_nlen _ _ SK2) | | apply kk_update]. apply (kk_trans _ (s_w s1)); [apply (sk_nlen _ _ S1) | apply kk_refl; auto | apply kk_aux]. }
  change (s_tol (with_world (mkS _ _ _ _ _ _ _ _ _ _ _ _) _)) with (s_tol s1). cbn [s_tol with_world].
  intros X. exists s1, w3. do 5 (split; [assumption || reflexivity|]). unfold lm_decide.
  assert (N40 : forall l, nst (n_data (nd w4 l)) = nst (n_data (nd w3 l))) by (intros l; rewrite (nd_same w4 w3); auto).
  destruct (Rltb (chi2_of (s_w s) - chi2_of w3) 0) eqn:D1.
  - injection X as <- <-. split; auto. repeat split; congruence.
  - cbn in X. rewrite T1 in X.
    destruct (Rltb (chi2_of (s_w s) - chi2_of w3) (s_tol s)) eqn:D2; injection X as <- <-; (split; [reflexivity|]); (split; [intros _; exact N40|]); split; try discriminate; intros _; cbn; auto.
    rewrite L1, (sk_graph _ _ SK). f_equal. rewrite form_dot. reflexivity.
Qed.

(** ** the damped normal equations *)
Lemma lm_equations lin s s1 : wf (s_w s) -> exact lin -> sym_infos (s_w s) -> psd_infos (s_w s) -> weights_nonneg (s_w s) -> 0 < s_lambda s -> optimize_gauss_newton lin true s = Some s1 ->
  let n := g_stateDim (w_graph (s_w s)) in (forall y, gn_form (s_w s) y (s_dx s1) + s_lambda s * dot n y (s_dx s1) = gn_rhs (s_w s) y) /\
  dot n (s_dx s1) (s_b s1) = gn_rhs (s_w s) (s_dx s1) /\ form n (s_L s1) (s_dx s1) (s_dx s1) = gn_form (s_w s) (s_dx s1) (s_dx s1) + s_lambda s * dot n (s_dx s1) (s_dx s1).
Proof.
  intros W X Sy Ps We La E n. destruct (gn_ok lin true s W) as (s0 & b & Eb & B & E0 & Ew & Ebb & _ & EL & Edx & _). rewrite E in E0. injection E0 as <-. specialize (EL eq_refl). fold n in EL, Edx.
  set (L := s_L (build_info_adjacency b)) in *.
  assert (F : forall u v, gn_form (s_w s) u v = form n L u v) by (intros u v; unfold gn_form, form, n, L; rewrite (normal_matrix _ _ u v W B); reflexivity).
  assert (FL : forall u v, form n (s_L s1) u v = form n L u v + s_lambda s * dot n u v) by (intros u v; rewrite <- damped_form; apply form_ext; intros i j Hi _; apply EL; auto).
  assert (Rh : forall y, gn_rhs (s_w s) y = sumn n (fun i => s_b s1 i * y i)) by (intros y; unfold gn_rhs; rewrite <- (normal_rhs s b y W B); cbv zeta; rewrite Ebb; reflexivity).
  assert (NS : nonsingular n (s_L s1)).
  { apply (nonsingular_ext n (fun i j => L i j + if Nat.eqb i j then s_lambda s else 0)). { intros i j Hi _. symmetry. apply EL; auto. }
    apply damped_nonsingular; auto. intros x. apply (form_psd s b x W B Sy Ps We). }
  assert (Sol : forall i, (i < n)%nat -> sumn n (fun j => s_L s1 i j * s_dx s1 j) = s_b s1 i) by (intros i Hi; rewrite Edx; apply (X n); auto).
  split; [|split].
  - intros y. rewrite F, <- FL, Rh. symmetry. apply form_solution. exact Sol.
  - rewrite Rh. unfold dot. apply sumn_ext; intros; ring.
  - rewrite FL, F. reflexivity.
Qed.

(** ** the form from below *)
Lemma cover {A B} (cs : list A) (js : list B) (h : A -> R) (f : A -> B -> bool) (v : B -> R) : NoDup js -> (forall c, In c cs -> 0 <= h c) -> (forall c j j', f c j = true -> f c j' = true -> j = j') ->
  (forall j, In j js -> exists c, In c cs /\ f c j = true /\ v j <= h c) -> lsum js v <= lsum cs h.
Proof.
  intros ND P U C. apply Rle_trans with (lsum js (fun j => lsum cs (fun c => if f c j then h c else 0))).
  - apply lsum_le. intros j Ij. destruct (C j Ij) as (c & Ic & Fc & L). clear - P Ic Fc L. induction cs as [|a cs IH]; [destruct Ic|]. rewrite lsum_cons.
    assert (Q : 0 <= lsum cs (fun c => if f c j then h c else 0)) by (apply lsum_nonneg; intros x Ix; destruct (f x j); [apply P; right; auto | lra]).
    destruct Ic as [->|Ic]; [rewrite Fc; lra|]. assert (v j <= lsum cs (fun c => if f c j then h c else 0)) by (apply IH; auto; intros; apply P; right; auto). assert (0 <= if f a j then h a else 0) by (destruct (f a j); [apply P; left; auto | lra]). lra.
  - assert (Sw : lsum js (fun j => lsum cs (fun c => if f c j then h c else 0)) = lsum cs (fun c => lsum js (fun j => if f c j then h c else 0))).
    { clear. induction js as [|j js IH]. { rewrite lsum_nil. symmetry. apply lsum_zero. intros; apply lsum_nil. } rewrite lsum_cons, IH, <- lsum_plus. apply lsum_ext. intros c _. rewrite lsum_cons. reflexivity. }
    rewrite Sw. apply lsum_le. intros c Ic. specialize (P c Ic). specialize (U c). clear - ND P U. induction ND as [|j js Nj ND IH]; [rewrite lsum_nil; auto|]. rewrite lsum_cons.
    destruct (f c j) eqn:Fj; [|lra]. rewrite lsum_zero; [lra|]. intros a Ia. destruct (f c a) eqn:Fa; auto. rewrite (U a j Fa Fj) in Ia. contradiction.
Qed.
Definition shifted (w : world) (y : nat -> R) (j : nat) : nval :=
  match state_of w j with L3 p => let d := inc_of w y j in L3 (mkV3 (vx p + d 0%nat) (vy p + d 1%nat) (vz p + d 2%nat)) | v => v end.
Definition gap (st st' : nat -> nval) (c : pycall) : R :=
  match call_factor c with
  | Some (cl, ids, W) => let e := fun i => fc_res cl (map st' ids) i - fc_res cl (map st ids) i in quad (fc_dim cl) W e e
  | None => 0 end.
Lemma anchor_inc rob cs w j v y k : inv rob cs w -> nth_error (nodes_of cs) j = Some (ANCHOR, v) -> inc_of w y j k = 0.
Proof.
  intros V E. destruct (mode_of rob cs w j _ v V E) as (l & G & M & _). unfold inc_of. rewrite G. unfold increments, is_anchor. rewrite M. reflexivity.
Qed.
Lemma shifted_shift rob cs w y j : inv rob cs w -> mapping cs -> (j < length (nodes_of cs))%nat -> shift (state_of w j) (shifted w y j) (inc_of w y j).
Proof.
  intros V Mp Hj. destruct (nth_error (nodes_of cs) j) as [[m v]|] eqn:E; [|apply nth_error_None in E; lia]. destruct (mode_of rob cs w j m v V E) as (l & G & M & _ & _ & K).
  assert (A : m = ANCHOR -> forall k, inc_of w y j k = 0) by (intros -> k; eapply anchor_inc; eauto). unfold shifted.
  destruct (state_of w j) eqn:Es; try (apply shift_stay; intros k _; apply A; destruct m; auto; (rewrite (Mp j _ v E) in K by discriminate; discriminate)). apply shift_point; reflexivity.
Qed.
Lemma form_calls cs w y : typed [] cs -> inv QUADRATIC cs w -> mapping cs -> sym_infos w -> gn_form w y y = lsum cs (gap (state_of w) (shifted w y)).
Proof.
  intros T V Mp SI. pose proof (iv_tracks _ _ _ V) as Tr. unfold gn_form. rewrite (tk_fac _ _ _ Tr).
  rewrite (lsum_seq_list _ (fun '(cl, ids, W) => let e := fun i => fc_res cl (map (shifted w y) ids) i - fc_res cl (map (state_of w) ids) i in quad (fc_dim cl) W e e)%R).
  - rewrite lsum_flat_map. apply lsum_ext. intros c _. unfold facts, gap. destruct (call_factor c) as [[[cl ids] W]|]; rewrite ?lsum_cons, lsum_nil; cbv zeta; lra.
  - intros k [[cl ids] W] E. cbn [Nat.add]. destruct (tk_cls _ _ _ Tr k cl ids W E) as (A & B & C & F). assert (Hk : (k < length (flat_map facts cs))%nat) by (apply nth_error_Some; congruence).
    unfold weight_at. rewrite (ho_rob _ _ _ _ (iv_holds _ _ _ V) k Hk). cbn [robust_eval]. rewrite Rmult_1_l. destruct (jac_times_class QUADRATIC cs w k cl ids W y 0 V E) as [Ik _].
    rewrite quad_sym by (apply SI; auto). unfold fdim. rewrite A, C. destruct (facts_in _ _ _ _ _ E) as (c & Ic & Fc). pose proof (typed_in cs c [] T Ic) as Ty.
    assert (X : forall i, (i < fc_dim cl)%nat -> jac_times w k (increments w y) i = fc_res cl (map (shifted w y) ids) i - fc_res cl (map (state_of w) ids) i).
    { intros i Hi. destruct (jac_times_class QUADRATIC cs w k cl ids W y i V E) as [_ ->]. rewrite (call_affine (fold_left kinds_after cs []) c cl ids W (state_of w) (shifted w y) (inc_of w y) i); auto; [ring| |].
      - intros j q Hq. destruct (state_kind QUADRATIC cs w j q V Hq) as (_ & _ & K & _). exact K.
      - intros j Hj. apply (shifted_shift QUADRATIC cs); auto. rewrite <- session_len. exact (typed_ids _ _ _ _ _ _ Ty Fc Hj). }
    apply quad_ext; auto.
Qed.
Definition sees (c : pycall) (j : nat) : bool := match c with CLandmark3d _ _ j' _ _ => Nat.eqb j' j | _ => false end.
Lemma form_below_mu mu cs w y : typed [] cs -> inv QUADRATIC cs w -> mapping cs -> Forall call_info cs -> well_seen mu cs (state_of w) ->
  mu * dot (g_stateDim (w_graph w)) y y <= gn_form w y y.
Proof.
  intros T V Mp P Ws. destruct (inv_infos QUADRATIC cs w V P ltac:(discriminate)) as (Sy & _). pose proof (gd_wf _ (iv_good _ _ _ V)) as Wf.
  rewrite (form_calls cs w y T V Mp Sy). rewrite <- (dot_below _ _ _ _ _ (pack_of_increments w y Wf) (pack_of_increments w y Wf)), (wf_state _ Wf), pack_dot, <- lsum_scal.
  apply (cover cs (g_active (w_graph w)) (gap (state_of w) (shifted w y)) (fun c l => match c with CLandmark3d _ _ j' _ _ => match get_node w j' with Some l' => Nat.eqb l' l | None => false end | _ => false end)).
  - apply (NoDup_map_inv _ _ (wf_ids _ Wf)).
  - intros c Ic. rewrite Forall_forall in P. specialize (P c Ic). unfold call_info, gap in *. destruct (call_factor c) as [[[cl ids] W]|]; [|lra]. apply P.
  - intros c l l' A B. destruct c; try discriminate. destruct (get_node w idL); [|discriminate]. apply Nat.eqb_eq in A. apply Nat.eqb_eq in B. congruence.
  - intros l Il. destruct (In_nth_error _ _ Il) as [a Ha]. destruct (active_id QUADRATIC cs w a l V Ha) as (j & Gj & Lj). destruct (nth_error (nodes_of cs) j) as [[m v]|] eqn:Ej; [|apply nth_error_None in Ej; lia].
    destruct (mode_of QUADRATIC cs w j m v V Ej) as (l' & G' & M & Id & Es & K). assert (l' = l) as -> by congruence. assert (NA : m <> ANCHOR) by (intros ->; destruct (wf_active _ Wf l Il) as [_ Q]; congruence).
    destruct (Ws j m v Ej NA) as (obs & i & W & u & Tp & Ic & Ei & Rg & Lo). exists (CLandmark3d obs i j W u). split; auto. split. { rewrite Gj. apply Nat.eqb_refl. }
    rewrite (Mp j m v Ej NA) in K. destruct (state_of w j) as [| | |p|] eqn:Ep; try discriminate.
    assert (Dm : ndim w l = 3%nat). { unfold ndim. destruct (gd_ids _ (iv_good _ _ _ V) j l Gj) as [Ll _]. destruct (gd_kind _ (iv_good _ _ _ V) l Ll) as [-> _]. rewrite <- Es. reflexivity. }
    rewrite Dm. set (d := increments w y l). assert (Sj : shifted w y j = L3 (mkV3 (vx p + d 0%nat) (vy p + d 1%nat) (vz p + d 2%nat))) by (unfold shifted, inc_of; rewrite Ep, Gj; reflexivity).
    assert (Si : shifted w y i = P3 Tp) by (unfold shifted; rewrite Ei; reflexivity).
    set (x := m3app (mR (se3_inv Tp)) (mkV3 (d 0%nat) (d 1%nat) (d 2%nat))).
    assert (G : gap (state_of w) (shifted w y) (CLandmark3d obs i j W u) = quad 3 W (lvec (l3 x)) (lvec (l3 x))).
    { unfold gap, call_factor. cbn [pycall_op]. assert (Q : forall k, (k < 3)%nat -> lvec (l3 (res_landmark3d obs Tp (mkV3 (vx p + d 0%nat) (vy p + d 1%nat) (vz p + d 2%nat)))) k - lvec (l3 (res_landmark3d obs Tp p)) k = lvec (l3 x) k).
      { intros k Hk. unfold x, res_landmark3d. generalize (se3_inv Tp). intros [[? ? ? ? ? ? ? ? ?] [? ? ?] ? ?]. destruct p, k as [|[|[|k]]]; [..|lia]; cbn; ring. }
      destruct (i <? j)%nat; cbn [map c_landmark3d fc_dim fc_res]; rewrite Ei, Ep, Si, Sj; apply quad_ext; exact Q. }
    rewrite G. eapply Rle_trans; [|apply Lo]. right. cbn [sumn].
    assert (N : v3sqn x = v3sqn (mkV3 (d 0%nat) (d 1%nat) (d 2%nat))).
    { unfold x, se3_inv. cbn [mR]. destruct Rg as (HQ & _). unfold v3sqn. rewrite v3dot_app, <- m3app_mul. replace (m3tr (m3tr (mR Tp))) with (mR Tp) by (generalize (mR Tp); lin). rewrite (rotation_rinv _ HQ), m3app_id. reflexivity. }
    unfold v3sqn, v3dot in N. cbn [vx vy vz] in N. unfold l3, lvec. cbn [nth]. rewrite N. ring.
Qed.

(** ** one pass, in numbers *)
Lemma sumn_sq_zero n (d : nat -> R) : sumn n (fun i => d i * d i) = 0 -> forall i, (i < n)%nat -> d i * d i = 0.
Proof.
  induction n as [|n IH]; intros Z i Hi; [lia|]. cbn [sumn] in Z. assert (0 <= sumn n (fun i => d i * d i)) by (apply sumn_nonneg; intros; nra). assert (0 <= d n * d n) by nra.
  destruct (Nat.eq_dec i n) as [->|]; [lra|]. apply IH; [lra|lia].
Qed.
Lemma dot_plus_l n x y z : dot n (fun i => x i + y i) z = dot n x z + dot n y z.
Proof. unfold dot. rewrite <- sumn_plus. apply sumn_ext; intros; ring. Qed.
Lemma dot_opp_l n x z : dot n (fun i => - x i) z = - dot n x z.
Proof. unfold dot. rewrite <- sumn_opp. apply sumn_ext; intros; ring. Qed.
Lemma dot_nonneg n x : 0 <= dot n x x.
Proof. unfold dot. induction n as [|n IH]; cbn [sumn]; [lra|]. nra. Qed.
Lemma dot_half n a b : dot n (fun i => - a i + b i / 2) (fun i => - a i + b i / 2) = dot n a a - dot n a b + dot n b b / 4.
Proof. unfold dot. induction n as [|n IH]; cbn [sumn]; [lra|]. rewrite IH. field. Qed.
Lemma form_opp_l n L x y : form n L (fun i => - x i) y = - form n L x y.
Proof. unfold form. rewrite <- sumn_opp. apply sumn_ext; intros. rewrite <- sumn_opp. apply sumn_ext; intros; ring. Qed.
Lemma form_opp_r n L x y : form n L x (fun i => - y i) = - form n L x y.
Proof. unfold form. rewrite <- sumn_opp. apply sumn_ext; intros. rewrite <- sumn_opp. apply sumn_ext; intros; ring. Qed.
Lemma damped_numbers n L (la mu : R) e d : 0 < la -> 0 < mu -> (forall x y, form n L x y = form n L y x) -> (forall y, mu * dot n y y <= form n L y y) ->
  (forall y, form n L y d + la * dot n y d = form n L y e) -> let e' := fun i => - d i + e i in
  form n L e e - form n L e' e' = form n L d d + 2 * la * dot n d d /\ form n L e' e' <= la / (4 * mu) * form n L e e /\ (dot n d d = 0 -> form n L e e = 0).
Proof.
  intros Pl Pm Sy Lo Eq e'. assert (E1 : form n L e' e' = la * dot n e' d).
  { pose proof (Eq e') as Q. assert (A : form n L e' e' = - form n L e' d + form n L e' e) by (unfold e' at 2; rewrite form_plus_r, form_opp_r; ring). lra. }
  assert (E2 : form n L e' e' = form n L e e - 2 * form n L d e + form n L d d).
  { unfold e'. rewrite form_plus_l, !form_plus_r, !form_opp_l, !form_opp_r. rewrite (Sy e d). ring. }
  pose proof (Eq d) as Q. split; [lra|]. split.
  - assert (D : dot n e' d = dot n e' e - dot n e' e').
    { assert (Z : dot n e' e' = dot n (fun i => - d i + e i) e') by reflexivity. rewrite dot_plus_l, dot_opp_l, (dot_comm n e e'), (dot_comm n d e') in Z. lra. }
    set (h := fun i => - e' i + e i / 2). pose proof (dot_nonneg n h) as H. assert (Hh : dot n h h = dot n e' e' - dot n e' e + dot n e e / 4).
    { apply dot_half. }
    rewrite E1, D. pose proof (Lo e) as Le. assert (Q2 : dot n e' e - dot n e' e' <= dot n e e / 4) by lra.
    apply Rle_trans with (la * (dot n e e / 4)). { apply Rmult_le_compat_l; lra. }
    replace (la / (4 * mu) * form n L e e) with (la / 4 * (form n L e e / mu)) by (field; lra). replace (la * (dot n e e / 4)) with (la / 4 * dot n e e) by field. apply Rmult_le_compat_l; [lra|]. apply Rmult_le_reg_l with mu; [lra|]. replace (mu * (form n L e e / mu)) with (form n L e e) by (field; lra). exact Le.
  - intros Z. assert (Zd : forall y, dot n y d = 0).
    { intros y. unfold dot in *. apply sumn_zero. intros i Hi. assert (d i * d i = 0). { apply (sumn_sq_zero n d Z i Hi). } nra. }
    pose proof (Eq e) as Qe. rewrite Zd in Qe. pose proof (Lo d) as Ld. rewrite Z in Ld. assert (Fd : form n L e d = 0). { rewrite form_rows. unfold dot. apply sumn_zero. intros i Hi. replace (sumn n (fun j => L i j * d j)) with (dot n (L i) d) by reflexivity. rewrite Zd. ring. } lra.
Qed.

(** ** one pass, from any state of a session *)
Section Pass.
Variables (lin : linear_solver) (cs : list pycall) (mu : R).
Hypothesis (X : exact lin) (T : typed [] cs) (Mp : mapping cs) (So : Forall solid_call cs) (P : Forall call_info cs) (Pm : 0 < mu).
Definition ready (w : world) : Prop := inv QUADRATIC cs w /\ firm w /\ well_seen mu cs (state_of w).
Lemma observer obs i j W u : In (CLandmark3d obs i j W u) cs -> (i < length (nodes_of cs))%nat.
Proof using T.
  intros Ic. rewrite <- session_len. assert (Q : exists cl ids, call_factor (CLandmark3d obs i j W u) = Some (cl, ids, W) /\ In i ids) by (unfold call_factor; cbn [pycall_op]; destruct (i <? j)%nat; do 2 eexists; (split; [reflexivity|cbn; auto])).
  destruct Q as (cl & ids & E & Hi). exact (typed_ids _ _ _ _ _ _ (typed_in cs _ [] T Ic) E Hi).
Qed.
Lemma seen_held w : inv QUADRATIC cs w -> well_seen mu cs (state_of w) -> forall j, (j < length (nodes_of cs))%nat -> held cs j.
Proof.
  intros V Ws j Hj. destruct (nth_error (nodes_of cs) j) as [[m v]|] eqn:Ej; [|apply nth_error_None in Ej; lia].
  assert (A : m <> ANCHOR -> held cs j).
  { intros NA. destruct (Ws j m v Ej NA) as (obs & i & W & u & Tp & Ic & Ei & _ & Lo). apply (held_landmark3d cs obs i j W u Ic).
    - intros x Z k Hk. specialize (Lo x). rewrite Z in Lo. assert (x 0%nat * x 0%nat + x 1%nat * x 1%nat + x 2%nat * x 2%nat <= 0) by (apply Rmult_le_reg_l with mu; [lra|]; lra).
      destruct k as [|[|[|k]]]; [nra|nra|nra|lia].
    - destruct (nth_error (nodes_of cs) i) as [[mi vi]|] eqn:Ei'.
      + destruct (mode_of QUADRATIC cs w i mi vi V Ei') as (_ & _ & _ & _ & _ & K). destruct mi; try (eapply held_anchor; exact Ei'); exfalso; rewrite Ei, (Mp i _ vi Ei') in K by discriminate; discriminate.
      + exfalso. apply nth_error_None in Ei'. pose proof (observer _ _ _ _ _ Ic). lia. }
  destruct m; [apply A; discriminate|eapply held_anchor; exact Ej|apply A; discriminate].
Qed.
Lemma well_seen_kept w st : inv QUADRATIC cs w -> well_seen mu cs (state_of w) -> rearranged cs (state_of w) st -> well_seen mu cs st.
Proof.
  intros V Ws Re j m v Ej NA. destruct (Ws j m v Ej NA) as (obs & i & W & u & Tp & Ic & Ei & Rg & Lo). exists obs, i, W, u, Tp. split; auto. split; auto.
  destruct (nth_error (nodes_of cs) i) as [[mi vi]|] eqn:Ei'.
  - destruct (mode_of QUADRATIC cs w i mi vi V Ei') as (_ & _ & _ & _ & _ & K). specialize (Re i mi vi Ei'). destruct mi; try congruence; exfalso; rewrite Ei, (Mp i _ vi Ei') in K by discriminate; discriminate.
  - exfalso. apply nth_error_None in Ei'. pose proof (observer _ _ _ _ _ Ic). lia.
Qed.
Lemma chi2_calls w : inv QUADRATIC cs w -> chi2_of w = lsum cs (call_chi2 (state_of w)).
Proof. intros V. apply (tracks_chi2 _ cs _ (iv_tracks _ _ _ V)). Qed.
(** states moved by [-dx] *)
Lemma moved w w' dx : inv QUADRATIC cs w -> inv QUADRATIC cs w' -> w_graph w' = w_graph w ->
  (forall l, In l (g_active (w_graph w)) -> nst (n_data (nd w' l)) = val_update (nst (n_data (nd w l))) (increments w (fun i => - dx i) l)) ->
  (forall l, ~ In l (g_active (w_graph w)) -> nst (n_data (nd w' l)) = nst (n_data (nd w l))) ->
  (forall j, (j < length (nodes_of cs))%nat -> shift (state_of w j) (state_of w' j) (inc_of w (fun i => - dx i) j)) /\ rearranged cs (state_of w) (state_of w').
Proof using Mp.
  intros V V' G Up Out. pose proof (gd_wf _ (iv_good _ _ _ V)) as Wf.
  assert (A : forall j m v, nth_error (nodes_of cs) j = Some (m, v) -> match m with ANCHOR => state_of w' j = state_of w j | _ => exists p q, state_of w j = L3 p /\ state_of w' j = L3 q /\ L3 q = val_update (L3 p) (inc_of w (fun i => - dx i) j) end).
  { intros j m v Ej. destruct (mode_of QUADRATIC cs w j m v V Ej) as (l & Gl & M & Id & Es & K). destruct (mode_of QUADRATIC cs w' j m v V' Ej) as (l' & Gl' & _ & _ & Es' & _).
    assert (l' = l) as -> by (unfold get_node in Gl, Gl'; rewrite G in Gl'; congruence).
    assert (B : m <> ANCHOR -> exists p q, state_of w j = L3 p /\ state_of w' j = L3 q /\ L3 q = val_update (L3 p) (inc_of w (fun i => - dx i) j)).
    { intros NA. destruct (standard_active QUADRATIC cs w j m v l V Ej NA Gl) as [a Ha]. apply nth_error_In in Ha. specialize (Up l Ha). rewrite <- Es, <- Es' in Up. rewrite (Mp j m v Ej NA) in K. destruct (state_of w j) as [| | |p|]; try discriminate.
      unfold inc_of. rewrite Gl. exists p, (v3add p (dx3 (increments w (fun i => - dx i) l))). split; auto. }
    destruct m; [apply B; discriminate| |apply B; discriminate]. rewrite Es, Es'. apply Out. intros I. apply (wf_active _ Wf) in I. destruct I as [_ I]. congruence. }
  split.
  - intros j Hj. destruct (nth_error (nodes_of cs) j) as [[m v]|] eqn:Ej; [|apply nth_error_None in Ej; lia]. specialize (A j m v Ej).
    assert (B : (exists p q, state_of w j = L3 p /\ state_of w' j = L3 q /\ L3 q = val_update (L3 p) (inc_of w (fun i => - dx i) j)) -> shift (state_of w j) (state_of w' j) (inc_of w (fun i => - dx i) j)).
    { intros (p & q & -> & -> & Q). cbn [val_update] in Q. injection Q as ->. apply shift_point; reflexivity. }
    destruct m; [apply B; auto| |apply B; auto]. rewrite A. apply shift_stay. intros i _. eapply anchor_inc; eauto.
  - intros j m v Ej. specialize (A j m v Ej). destruct m; auto; destruct A as (p & q & _ & -> & _); eauto.
Qed.
Lemma lambda_shrinks la F D delta den : 0 < la -> 0 <= F -> 0 <= D -> delta = / 2 * (F + 2 * la * D) -> den = / 2 * (F + la * D) -> 
  lambda_update la delta den = la / 4 \/ lambda_update la delta den = la /\ D = 0.
Proof using.
  intros Pl PF PD -> ->. unfold lambda_update. assert (0 <= la * D) by (apply Rmult_le_pos; lra). destruct (Req_EM_T _ 0) as [Z|Z].
  - assert (Zd : la * D = 0) by lra. right. unfold Rltb. destruct (Rlt_dec 0 _); [lra|]. split; auto. apply Rmult_integral in Zd. destruct Zd; lra.
  - left. cbv zeta. assert (P1 : 0 < / 2 * (F + la * D)) by (apply Rle_lt_trans with (F * 0); [lra|]; nra || lra).
    assert (Q : 1 <= / 2 * (F + 2 * la * D) / (/ 2 * (F + la * D))). { apply Rmult_le_reg_r with (/ 2 * (F + la * D)); auto. unfold Rdiv. rewrite Rmult_assoc, Rinv_l by lra. lra. }
    unfold Rltb. destruct (Rlt_dec _ (1 / 4)); [lra|]. destruct (Rlt_dec (8 / 10) _); [field|lra].
Qed.
Lemma pass k la tol s s' e g : ready (s_w s) -> 0 < s_lambda s -> lm_iter lin s = Some (s', e) -> solve lin GN k la tol s = Some g ->
  e <> Rejected /\ ready (s_w s') /\ rearranged cs (state_of (s_w s)) (state_of (s_w s')) /\
  0 <= chi2_of (s_w s') - chi2_of (s_w g) <= s_lambda s / (4 * mu) * (chi2_of (s_w s) - chi2_of (s_w g)) /\
  (e = Converged -> chi2_of (s_w s) - chi2_of (s_w s') < s_tol s) /\
  (e = Accepted -> s_lambda s' = s_lambda s / 4 \/ s_lambda s' = s_lambda s /\ chi2_of (s_w s') = chi2_of (s_w g)) /\ chi2_of (s_w s') <= chi2_of (s_w s).
Proof.
  intros (V & Fi & Ws) Pl It Eg. pose proof (gd_wf _ (iv_good _ _ _ V)) as Wf. set (w := s_w s) in *. pose proof (seen_held w V Ws) as Hd.
  destruct (inv_infos QUADRATIC cs w V P ltac:(discriminate)) as (Sy & Ps & We). assert (We' : weights_nonneg w) by (intros l I; left; apply We; auto).
  destruct (lm_iter_parts lin s s' e Wf It) as (s1 & w3 & E1 & K3 & KK3 & Up & Out & Ed & Ke & Lc & La). fold w in E1, K3, KK3, Up, Out, Ed, La.
  pose proof (inv_skel QUADRATIC cs w w3 V K3 KK3) as V3. destruct (lm_iter_frame _ _ _ _ It) as (Ks & Outs & Ts). fold w in Ks, Outs.
  pose proof (inv_skel QUADRATIC cs w (s_w s') V Ks (kk_lm_iter _ _ _ _ It)) as Vs. pose proof (firm_lm_iter _ _ _ _ It Fi) as Fs.
  destruct (lm_equations lin s s1 Wf X Sy Ps We' Pl E1) as (Eq & Eb & El). fold w in Eq, Eb, El.
  destruct (from_step lin cs k la tol s g X T Mp So P Hd V Fi Eg) as (ex & Hr & Shg & Rg). fold w in Hr, Shg, Rg. pose proof (from_inv lin cs k la tol s g V Eg) as Vg.
  destruct (build_wf s Wf) as (b & _ & B). set (n := g_stateDim (w_graph w)) in *. set (L := s_L (build_info_adjacency b)).
  assert (F : forall u v, gn_form w u v = form n L u v) by (intros u v; unfold n, L, w, gn_form, form; rewrite (normal_matrix _ _ u v Wf B); reflexivity).
  assert (SyL : forall x y, form n L x y = form n L y x) by (intros x y; exact (form_sym s b x y Wf B)).
  assert (Lo : forall y, mu * dot n y y <= form n L y y) by (intros y; rewrite <- F; apply (form_below_mu mu cs w y T V Mp P Ws)).
  assert (Eq' : forall y, form n L y (s_dx s1) + s_lambda s * dot n y (s_dx s1) = form n L y ex) by (intros y; rewrite <- !F, Eq; apply Hr).
  destruct (damped_numbers n L (s_lambda s) mu ex (s_dx s1) Pl Pm SyL Lo Eq') as (N1 & N2 & N3). cbv zeta in N1, N2.
  destruct (moved w w3 (s_dx s1) V V3 (sk_graph _ _ K3) Up ltac:(intros l Hl; rewrite (Out l Hl); reflexivity)) as (Sh3 & R3).
  pose proof (gn_square s ex (fun i => - s_dx s1 i) Wf Sy Hr) as Q3. pose proof (gn_square s ex (fun _ => 0) Wf Sy Hr) as Q0. fold w in Q3, Q0.
  rewrite (mapping_cost cs w _ _ T V Shg), <- (chi2_calls _ Vg) in Q3, Q0. rewrite (mapping_cost cs w _ _ T V Sh3), <- (chi2_calls _ V3), F in Q3.
  rewrite (mapping_cost cs w (fun _ => 0) (state_of w) T V), <- (chi2_calls _ V), F in Q0.
  2: { intros j Hj. apply shift_stay. intros i _. unfold inc_of. destruct (get_node w j); auto. unfold increments. destruct (is_anchor _); auto. }
  assert (Q0' : form n L (fun i => 0 + ex i) (fun i => 0 + ex i) = form n L ex ex) by (apply form_below; intros i _; ring). rewrite Q0' in Q0.
  pose proof (dot_nonneg n (s_dx s1)) as Dn. pose proof (Lo (s_dx s1)) as Ld. assert (Fd : 0 <= form n L (s_dx s1) (s_dx s1)) by (assert (0 <= mu * dot n (s_dx s1) (s_dx s1)) by (apply Rmult_le_pos; lra); lra).
  assert (LD : 0 <= s_lambda s * dot n (s_dx s1) (s_dx s1)) by (apply Rmult_le_pos; lra).
  assert (NR : e <> Rejected). { rewrite Ed. unfold lm_decide, Rltb. destruct (Rlt_dec (chi2_of w - chi2_of w3) 0) as [C|C]; [lra|]. destruct (Rlt_dec _ (s_tol s)); discriminate. }
  specialize (Ke NR). destruct (moved w (s_w s') (s_dx s1) V Vs (sk_graph _ _ Ks)) as (Shs & Rs).
  { intros l Hl. rewrite Ke. apply Up; auto. } { intros l Hl. rewrite (Outs l Hl). reflexivity. }
  assert (C3 : chi2_of (s_w s') = chi2_of w3).
  { pose proof (mapping_cost cs w _ _ T V Shs) as A1. pose proof (mapping_cost cs w _ _ T V Sh3) as A2. rewrite (chi2_calls _ Vs), (chi2_calls _ V3). lra. }
  split; auto. split. { split; auto. split; auto. apply (well_seen_kept w); auto. } split; auto. rewrite C3. split; [split|split; [|split]].
  - pose proof (Lo (fun i => - s_dx s1 i + ex i)). pose proof (dot_nonneg n (fun i => - s_dx s1 i + ex i)). assert (0 <= mu * dot n (fun i => - s_dx s1 i + ex i) (fun i => - s_dx s1 i + ex i)) by (apply Rmult_le_pos; lra). lra.
  - replace (chi2_of w - chi2_of (s_w g)) with (/ 2 * form n L ex ex) by lra. lra.
  - intros Ec. rewrite Ed in Ec. unfold lm_decide, Rltb in Ec. destruct (Rlt_dec _ 0); [discriminate|]. destruct (Rlt_dec _ (s_tol s)); [auto|discriminate].
  - intros Ea. specialize (La Ea). cbv zeta in La. fold n in La. rewrite Eb, El, <- (Eq (s_dx s1)), F in La.
    destruct (lambda_shrinks (s_lambda s) (form n L (s_dx s1) (s_dx s1)) (dot n (s_dx s1) (s_dx s1)) _ _ Pl Fd Dn eq_refl eq_refl) as [Q|[Q Z]].
    + left. rewrite La, <- Q. f_equal; lra.
    + right. split. { etransitivity; [rewrite La|exact Q]. f_equal; lra. } specialize (N3 Z). rewrite N3, Z in N1. rewrite Z in Ld. pose proof (Lo (fun i => - s_dx s1 i + ex i)). pose proof (dot_nonneg n (fun i => - s_dx s1 i + ex i)). assert (0 <= mu * dot n (fun i => - s_dx s1 i + ex i) (fun i => - s_dx s1 i + ex i)) by (apply Rmult_le_pos; lra). lra.
  - lra.
Qed.

(** ** the best map is the same from every state of the loop *)
Lemma same_best k la tol k2 la2 tol2 s s2 g g2 : ready (s_w s) -> ready (s_w s2) -> rearranged cs (state_of (s_w s)) (state_of (s_w s2)) -> solve lin GN k la tol s = Some g -> solve lin GN k2 la2 tol2 s2 = Some g2 ->
  chi2_of (s_w g2) = chi2_of (s_w g) /\ forall j, (j < length (nodes_of cs))%nat -> state_of (s_w g2) j = state_of (s_w g) j.
Proof.
  intros (V & Fi & Ws) (V2 & Fi2 & Ws2) Re Eg Eg2. pose proof (seen_held _ V Ws) as Hd.
  destruct (from_step lin cs k la tol s g X T Mp So P Hd V Fi Eg) as (_ & _ & _ & Rg). destruct (from_step lin cs k2 la2 tol2 s2 g2 X T Mp So P Hd V2 Fi2 Eg2) as (_ & _ & _ & Rg2).
  pose proof (from_inv lin cs k la tol s g V Eg) as Vg. pose proof (from_inv lin cs k2 la2 tol2 s2 g2 V2 Eg2) as Vg2.
  assert (A : rearranged cs (state_of (s_w g)) (state_of (s_w g2))) by (intros j m v Ej; specialize (Re j m v Ej); specialize (Rg j m v Ej); specialize (Rg2 j m v Ej); destruct m; auto; congruence).
  assert (A2 : rearranged cs (state_of (s_w g2)) (state_of (s_w g))) by (intros j m v Ej; specialize (Re j m v Ej); specialize (Rg j m v Ej); specialize (Rg2 j m v Ej); destruct m; auto; congruence).
  destruct (from_best lin cs k la tol s g X T Mp So P Hd V Fi Eg _ A) as (L1 & U1). destruct (from_best lin cs k2 la2 tol2 s2 g2 X T Mp So P Hd V2 Fi2 Eg2 _ A2) as (L2 & _).
  rewrite <- (chi2_calls _ Vg2) in L1, U1. rewrite <- (chi2_calls _ Vg) in L2. split; [lra|]. apply U1. exact L2.
Qed.
Lemma rearranged_trans st1 st2 st3 : rearranged cs st1 st2 -> rearranged cs st2 st3 -> rearranged cs st1 st3.
Proof using. intros A B j m v E. specialize (A j m v E). specialize (B j m v E). destruct m; auto. congruence. Qed.
Lemma rearranged_refl w : inv QUADRATIC cs w -> rearranged cs (state_of w) (state_of w).
Proof using Mp.
  intros V j m v E. destruct (mode_of QUADRATIC cs w j m v V E) as (_ & _ & _ & _ & _ & K). destruct m; auto; rewrite (Mp j _ v E) in K by discriminate; destruct (state_of w j); try discriminate; eauto.
Qed.
Section Loop.
Variables (l0 B K : R).
Hypothesis (Pl0 : 0 < l0) (PK : 0 <= K).
Let c := l0 / (4 * mu).
Definition on_course (s : solver) : Prop := forall k la tol g, solve lin GN k la tol s = Some g -> chi2_of (s_w g) = B.
Lemma pow4 m : 0 < 4 ^ m. Proof using. apply pow_lt. lra. Qed.
Lemma c_pos : 0 < c. Proof. unfold c. apply Rdiv_lt_0_compat; lra. Qed.
Lemma shrink_nonneg m : 0 <= shrink c m.
Proof. induction m as [|m IH]; cbn [shrink]; [lra|]. apply Rmult_le_pos; auto. left. apply Rdiv_lt_0_compat; [apply c_pos|apply pow4]. Qed.
(** [s] after [m] passes *)
Definition after (m : nat) (s : solver) : Prop := ready (s_w s) /\ 0 < s_lambda s /\ on_course s /\ 0 <= chi2_of (s_w s) - B <= shrink c m * K /\ (s_lambda s <= l0 / 4 ^ m \/ chi2_of (s_w s) = B).
Lemma one_more m s s' e : after m s -> lm_iter lin s = Some (s', e) ->
  e <> Rejected /\ rearranged cs (state_of (s_w s)) (state_of (s_w s')) /\ ready (s_w s') /\ on_course s' /\ 0 <= chi2_of (s_w s') - B <= shrink c (S m) * K /\
  (s_lambda s <= l0 -> chi2_of (s_w s') - B <= c * (chi2_of (s_w s) - B)) /\ (e = Converged -> chi2_of (s_w s) - chi2_of (s_w s') < s_tol s) /\ (e = Accepted -> after (S m) s' /\ s_lambda s' <= s_lambda s).
Proof.
  intros (Re & Pl & Oc & Ex & La) It. destruct (solve_total lin GN 0 0 0 s (gd_wf _ (iv_good _ _ _ (proj1 Re)))) as [g Eg]. pose proof (Oc _ _ _ _ Eg) as Bg.
  destruct (pass 0 0 0 s s' e g Re Pl It Eg) as (NR & Re' & Rs & (Lo & Up) & Cv & Ac & _). rewrite Bg in Lo, Up, Ac.
  assert (Oc' : on_course s'). { intros k' la' tol' g' Eg'. destruct (same_best 0 0 0 k' la' tol' s s' g g' Re Re' Rs Eg Eg') as [Q _]. congruence. }
  assert (Cm : forall l, s_lambda s <= l -> chi2_of (s_w s') - B <= l / (4 * mu) * (chi2_of (s_w s) - B)).
  { intros l Hl. eapply Rle_trans; [exact Up|]. apply Rmult_le_compat_r; [lra|]. apply Rmult_le_compat_r; auto. left. apply Rinv_0_lt_compat. lra. }
  assert (Ex' : chi2_of (s_w s') - B <= shrink c (S m) * K).
  { destruct La as [La|Z].
    - eapply Rle_trans; [apply (Cm _ La)|]. replace (l0 / 4 ^ m / (4 * mu)) with (c / 4 ^ m) by (unfold c; pose proof (pow4 m); field; split; lra).
      cbn [shrink]. replace (shrink c m * (c / 4 ^ m) * K) with (c / 4 ^ m * (shrink c m * K)) by ring. apply Rmult_le_compat_l; [left; apply Rdiv_lt_0_compat; [apply c_pos|apply pow4]|lra].
    - rewrite Z in Up. assert (0 <= shrink c (S m) * K) by (apply Rmult_le_pos; [apply shrink_nonneg|auto]). lra. }
  split; auto. split; auto. split; auto. split; auto. split; auto. split; [intros Hl; apply Cm; exact Hl|]. split; auto. intros Ea. specialize (Ac Ea). split.
  - split; auto. split; [destruct Ac as [->|[-> _]]; lra|]. split; auto. split; auto. destruct Ac as [Q|[_ Z]]; [|right; auto].
    destruct La as [La|Z]; [left|right; rewrite Z in Up; lra]. rewrite Q. cbn [pow]. replace (l0 / (4 * 4 ^ m)) with (l0 / 4 ^ m / 4) by (field; pose proof (pow4 m); lra). lra.
  - destruct Ac as [->|[-> _]]; lra.
Qed.
Lemma passes : forall es m s s', iters lin es s s' -> ~ In Converged es -> after m s -> ~ In Rejected es /\ after (m + length es) s' /\ rearranged cs (state_of (s_w s)) (state_of (s_w s')) /\ s_lambda s' <= s_lambda s /\ s_tol s' = s_tol s.
Proof.
  induction es as [|e es IH]; intros m s s' It NC Af; inversion It; subst.
  - split; [intros []|]. cbn [length]. rewrite Nat.add_0_r. split; [exact Af|]. split; [apply rearranged_refl; apply Af|]. split; [lra|reflexivity].
  - match goal with H : lm_iter lin s = Some (?x, e) |- _ => rename x into sm; rename H into Is end. destruct (one_more m s sm e Af Is) as (NR & Rs & _ & _ & _ & _ & _ & Ac).
    assert (Ea : e = Accepted) by (destruct e; [exfalso; apply NR; reflexivity|exfalso; apply NC; left; reflexivity|reflexivity]).
    destruct (Ac Ea) as (Af' & Ll). match goal with H : iters lin es sm s' |- _ => destruct (IH (S m) sm s' H ltac:(intros Q; apply NC; right; auto) Af') as (NR' & Af2 & R2 & L2 & T2) end.
    destruct (lm_iter_frame _ _ _ _ Is) as (_ & _ & Tm). split; [intros [Q|Q]; auto|]. cbn [length]. rewrite <- plus_n_Sm. split; auto. split; [eapply rearranged_trans; eauto|]. split; [lra|congruence].
Qed.
End Loop.
Lemma lm_result k la tol k' la' tol' s t g : ready (s_w s) -> solve lin LM k la tol s = Some t -> solve lin GN k' la' tol' s = Some g -> let c := / (400000 * mu) in
  ready (s_w t) /\ rearranged cs (state_of (s_w s)) (state_of (s_w t)) /\ 0 <= chi2_of (s_w t) - chi2_of (s_w g) /\
  (chi2_of (s_w t) - chi2_of (s_w g) <= shrink c (Nat.max 1 k) * (chi2_of (s_w s) - chi2_of (s_w g)) \/ (1 - c) * (chi2_of (s_w t) - chi2_of (s_w g)) <= c * tol).
Proof.
  intros Re Et Eg c. unfold solve in Et. destruct (optimize_levenberg_marquardt lin k _) as [[t1 j]|] eqn:Q; [|discriminate]. cbn in Et. injection Et as ->. unfold optimize_levenberg_marquardt in Q.
  set (s0 := with_lambda (with_tol (with_lambda s la) tol) (1 / 100000)) in Q. apply lm_loop_spec in Q; [|lia]. destruct Q as (es & e & It & NC & _ & D). set (B := chi2_of (s_w g)). set (K := chi2_of (s_w s) - B).
  assert (Oc : on_course B s0). { intros k2 la2 tol2 g2 E2. destruct (same_best k' la' tol' k2 la2 tol2 s s g g2 Re Re (rearranged_refl _ (proj1 Re)) Eg) as [Q _]; auto. }
  destruct Re as (V & Fi & Ws) eqn:ERe. assert (PK : 0 <= K).
  { destruct (from_best lin cs k' la' tol' s g X T Mp So P (seen_held _ V Ws) V Fi Eg (state_of (s_w s))) as [Q _]; [|rewrite <- (chi2_calls _ V) in Q; unfold K, B; lra].
    destruct (from_step lin cs k' la' tol' s g X T Mp So P (seen_held _ V Ws) V Fi Eg) as (_ & _ & _ & Rg). pose proof (rearranged_refl _ V) as Rr. intros i m v Ei. specialize (Rg i m v Ei). specialize (Rr i m v Ei). destruct m; auto. }
  assert (Af : after (1 / 100000) B K 0 s0). { split; [split; [|split]; auto|]. split; [cbn; lra|]. split; auto. split; [cbn [shrink]; change (s_w s0) with (s_w s); unfold K in *; lra|]. left. cbn. lra. }
  assert (Cc : 1 / 100000 / (4 * mu) = c) by (unfold c; field; lra).
  assert (Sp : exists sm, iters lin es s0 sm /\ lm_iter lin sm = Some (t, e)).
  { clear - It. revert It. generalize s0. induction es as [|a es IH]; intros z It; cbn [app] in It; inversion It; subst.
    - match goal with H : iters lin [] _ _ |- _ => inversion H; subst end. exists z. split; auto. constructor.
    - match goal with H : iters lin (es ++ [e]) ?x t |- _ => destruct (IH x H) as (sm & A & C) end. exists sm. split; auto. econstructor; eauto. }
  destruct Sp as (sm & Is & Il). destruct (passes (1 / 100000) B K ltac:(lra) PK es 0 s0 sm Is NC Af) as (_ & Afm & Rm & Lm & Tm). cbn [Nat.add] in Afm.
  destruct (one_more (1 / 100000) B K ltac:(lra) PK (length es) sm t e Afm Il) as (_ & Rs & Ret & _ & (Lo & Up) & Cm & Cv & _). rewrite Cc in Up, Cm. split; auto. split; [exact (rearranged_trans _ _ _ Rm Rs)|]. split; auto.
  destruct D as [[Ee _]|[_ [_ Le]]].
  - right. specialize (Cv Ee). specialize (Cm Lm). rewrite Tm in Cv. change (s_tol s0) with tol in Cv. fold B. assert (Pc : 0 < c) by (unfold c; apply Rinv_0_lt_compat; lra).
    assert (c * (chi2_of (s_w sm) - B) <= c * (tol + (chi2_of (s_w t) - B))) by (apply Rmult_le_compat_l; lra). lra.
  - left. rewrite <- Le. cbn [Nat.add]. rewrite Nat.add_1_r. exact Up.
Qed.
(** ** the distance of a map from the best one *)
Lemma near_best k la tol s g j : ready (s_w s) -> solve lin GN k la tol s = Some g -> (j < length (nodes_of cs))%nat -> mu * sq_dist (state_of (s_w s) j) (state_of (s_w g) j) <= 2 * (chi2_of (s_w s) - chi2_of (s_w g)).
Proof.
  intros (V & Fi & Ws) Eg Hj. pose proof (seen_held _ V Ws) as Hd. destruct (from_step lin cs k la tol s g X T Mp So P Hd V Fi Eg) as (ex & Hr & Sh & _). pose proof (from_inv lin cs k la tol s g V Eg) as Vg.
  pose proof (gd_wf _ (iv_good _ _ _ V)) as Wf. destruct (inv_infos QUADRATIC cs _ V P ltac:(discriminate)) as (Sy & _).
  pose proof (gn_square s ex (fun _ => 0) Wf Sy Hr) as Q0. rewrite (mapping_cost cs _ _ _ T V Sh), <- (chi2_calls _ Vg) in Q0. rewrite (mapping_cost cs _ (fun _ => 0) (state_of (s_w s)) T V), <- (chi2_calls _ V) in Q0.
  2: { intros i Hi. apply shift_stay. intros a _. unfold inc_of. destruct (get_node _ i); auto. unfold increments. destruct (is_anchor _); auto. }
  replace (fun i => 0 + ex i) with ex in Q0 by (apply FunctionalExtensionality.functional_extensionality; intros; ring).
  pose proof (form_below_mu mu cs _ ex T V Mp P Ws) as Lo. set (w := s_w s) in *.
  rewrite <- (dot_below _ _ _ _ _ (pack_of_increments w ex Wf) (pack_of_increments w ex Wf)), (wf_state _ Wf), pack_dot in Lo.
  assert (Nn : forall l, 0 <= sumn (ndim w l) (fun a => increments w ex l a * increments w ex l a)) by (intros; apply sumn_nonneg; intros; nra).
  enough (Z : sq_dist (state_of w j) (state_of (s_w g) j) <= lsum (g_active (w_graph w)) (fun l => sumn (ndim w l) (fun a => increments w ex l a * increments w ex l a))).
  { assert (mu * sq_dist (state_of w j) (state_of (s_w g) j) <= mu * lsum (g_active (w_graph w)) (fun l => sumn (ndim w l) (fun a => increments w ex l a * increments w ex l a))) by (apply Rmult_le_compat_l; lra). lra. }
  destruct (nth_error (nodes_of cs) j) as [[m v]|] eqn:Ej; [|apply nth_error_None in Ej; lia]. destruct (mode_of QUADRATIC cs w j m v V Ej) as (l & Gl & M & Id & Es & Kd). specialize (Sh j Hj).
  unfold sq_dist. destruct (state_of w j) as [| | |p|] eqn:Ep; try (apply lsum_nonneg; intros; apply Nn). apply shift_landmark in Sh. destruct Sh as (q & -> & S0 & S1 & S2).
  assert (Hq : v3sqn (v3sub p q) = sumn 3 (fun a => inc_of w ex j a * inc_of w ex j a)).
  { assert (N : forall a, inc_of w (fun i => - ex i) j a = - inc_of w ex j a) by (intros a; unfold inc_of; rewrite Gl; unfold increments; destruct (is_anchor _); ring). rewrite N in S0, S1, S2. unfold v3sqn, v3dot, v3sub. cbn [vx vy vz sumn]. rewrite S0, S1, S2. ring. }
  rewrite Hq. destruct (In_dec Nat.eq_dec l (g_active (w_graph w))) as [Il|Nl].
  - assert (Dm : ndim w l = 3%nat). { unfold ndim. destruct (gd_ids _ (iv_good _ _ _ V) j l Gl) as [Ll _]. destruct (gd_kind _ (iv_good _ _ _ V) l Ll) as [-> _]. rewrite <- Es. reflexivity. }
    unfold inc_of. rewrite Gl, <- Dm. clear - Il Nn. induction (g_active (w_graph w)) as [|a ls IH]; [destruct Il|]. rewrite lsum_cons. assert (0 <= lsum ls (fun l => sumn (ndim w l) (fun a => increments w ex l a * increments w ex l a))) by (apply lsum_nonneg; intros; apply Nn).
    destruct Il as [->|Il]; [lra|]. specialize (IH Il). specialize (Nn a). lra.
  - assert (Ma : m = ANCHOR). { destruct m; auto; exfalso; destruct (standard_active QUADRATIC cs w j _ v l V Ej ltac:(discriminate) Gl) as [a Ha]; apply Nl; eapply nth_error_In; exact Ha. }
    subst m. replace (sumn 3 (fun a => inc_of w ex j a * inc_of w ex j a)) with 0; [apply lsum_nonneg; intros; apply Nn|]. symmetry. apply sumn_zero. intros a _. rewrite (anchor_inc QUADRATIC cs w j v ex a V); [ring|rewrite Ej; f_equal; f_equal; auto].
Qed.
End Pass.
