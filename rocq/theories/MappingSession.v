(** Sessions that estimate 3D landmarks from anchored poses (C81). *)
Require Import Reals List Arith Lia Lra Psatz Bool Permutation.
From Verif Require Import Lin LinFacts SpecGeom SO3 SE3 AngleProofs Nodes NodesProofs Robust RobustProofs Graph GraphProofs Sums Solve SpecSolve SolveIndex SolveFrame SolveSums SolveBuild SolveProofs Session SessionProofs.
From Verif Require Import Factors SpecFactors FactorsPlanar FactorsSession SpecFrame FrameFactors FrameSolve FrameSession SpecSolvable SolvableFactors SolvableSession DenseProofs SpecMapping.
Import ListNotations.
Local Open Scope R_scope.
Local Arguments nd : simpl never.
Local Arguments fa : simpl never.

(** ** the residuals are affine in the landmarks *)
(** the node keeps its value, or is a landmark shifted by d *)
Inductive shift : nval -> nval -> (nat -> R) -> Prop :=
| shift_stay v d : none_below (nval_dim v) d -> shift v v d
| shift_point p p' d : vx p' = vx p + d 0%nat -> vy p' = vy p + d 1%nat -> vz p' = vz p + d 2%nat -> shift (L3 p) (L3 p') d.
Lemma stay_row row vs ds : Forall2 (fun v d => none_below (nval_dim v) d) vs ds -> forall off, row_dir row off vs ds = 0.
Proof.
  induction 1 as [|v d vs ds N _ IH]; intros off; cbn [row_dir]; auto. rewrite IH, (sumn_zero (nval_dim v)); [ring|]. intros k Hk. rewrite N by auto. ring.
Qed.
Lemma shift_other v v' d : shift v v' d -> kind_of v <> KL3 -> v' = v /\ none_below (nval_dim v) d.
Proof. intros S K. inversion S; subst; auto. cbn in K. congruence. Qed.
Lemma shift_landmark p v d : shift (L3 p) v d -> exists p', v = L3 p' /\ vx p' = vx p + d 0%nat /\ vy p' = vy p + d 1%nat /\ vz p' = vz p + d 2%nat.
Proof. intros S. inversion S as [v0 d0 N|]; subst; eauto. exists p. rewrite !N by (cbn; lia). repeat split; ring. Qed.
Lemma landmark_affine obs T p p' d e i : none_below 6 d -> vx p' = vx p + e 0%nat -> vy p' = vy p + e 1%nat -> vz p' = vz p + e 2%nat -> (i < 3)%nat ->
  lvec (l3 (res_landmark3d obs T p')) i = lvec (l3 (res_landmark3d obs T p)) i + row_dir (fc_jac (c_landmark3d obs false) [P3 T; L3 p] i) 0 [P3 T; L3 p] [d; e] /\
  lvec (l3 (res_landmark3d obs T p')) i = lvec (l3 (res_landmark3d obs T p)) i + row_dir (fc_jac (c_landmark3d obs true) [L3 p; P3 T] i) 0 [L3 p; P3 T] [e; d].
Proof.
  intros Z E0 E1 E2 Hi. pose proof (Z 0%nat ltac:(lia)) as Z0; pose proof (Z 1%nat ltac:(lia)) as Z1; pose proof (Z 2%nat ltac:(lia)) as Z2; pose proof (Z 3%nat ltac:(lia)) as Z3; pose proof (Z 4%nat ltac:(lia)) as Z4; pose proof (Z 5%nat ltac:(lia)) as Z5.
  destruct p' as [x y z]. cbn [vx vy vz] in *. subst x y z.
  destruct i as [|[|[|i]]]; try lia; cbn -[Rmult Rplus Rminus Ropp]; rewrite Z0, Z1, Z2, Z3, Z4, Z5; split; ring.
Qed.
Lemma call_affine ks c cl ids W st st' inc i : typed1 ks c -> (forall j k, nth_error ks j = Some k -> kind_of (st j) = k) -> call_factor c = Some (cl, ids, W) ->
  (forall j, In j ids -> shift (st j) (st' j) (inc j)) -> (i < fc_dim cl)%nat ->
  fc_res cl (map st' ids) i = fc_res cl (map st ids) i + row_dir (fc_jac cl (map st ids) i) 0 (map st ids) (map inc ids).
Proof.
  intros T K E Sh Hi.
  assert (Stay : (forall j, In j ids -> kind_of (st j) <> KL3) -> fc_res cl (map st' ids) i = fc_res cl (map st ids) i + row_dir (fc_jac cl (map st ids) i) 0 (map st ids) (map inc ids)).
  { intros A. rewrite (map_ext_in st' st ids) by (intros j Hj; apply (shift_other (st j) (st' j) (inc j)); auto). rewrite stay_row; [ring|].
    assert (B : forall j, In j ids -> none_below (nval_dim (st j)) (inc j)) by (intros j Hj; apply (shift_other (st j) (st' j) (inc j)); auto). clear - B. induction ids as [|j r IH]; cbn; constructor; [apply B; cbn; auto | apply IH; intros; apply B; cbn; auto]. }
  unfold call_factor in E. destruct c; cbn [pycall_op typed1] in E, T; try discriminate; try (destruct (_ <? _)%nat eqn:O); injection E as <- <- <-.
  all: try (apply Stay; intros j Hj; cbn [In] in Hj; repeat match goal with H : _ /\ _ |- _ => destruct H | H : _ \/ _ |- _ => destruct H | H : False |- _ => destruct H | H : nth_error _ _ = Some _ |- _ => apply K in H end; congruence).
  all: destruct T as [T1 T2]; apply K in T1; apply K in T2; pose proof (Sh idP ltac:(cbn; auto)) as S1; pose proof (Sh idL ltac:(cbn; auto)) as S2; apply shift_other in S1; [|congruence]; destruct S1 as [Q N];
    cbn [map]; rewrite Q; destruct (st idP) as [|T| | |]; try discriminate; destruct (st idL) as [| | |p|]; try discriminate; cbn [fc_dim c_landmark3d] in Hi; cbn [nval_dim] in N.
  all: assert (X : exists p', st' idL = L3 p' /\ vx p' = vx p + inc idL 0%nat /\ vy p' = vy p + inc idL 1%nat /\ vz p' = vz p + inc idL 2%nat) by (apply shift_landmark; exact S2).
  all: destruct X as (p' & -> & E0 & E1 & E2); pose proof (landmark_affine obs T p p' (inc idP) (inc idL) i N E0 E1 E2 Hi) as [A B]; cbn [fc_res c_landmark3d]; first [exact A | exact B].
Qed.
Lemma typed_ids ks c cl ids W j : typed1 ks c -> call_factor c = Some (cl, ids, W) -> In j ids -> (j < length ks)%nat.
Proof.
  intros T E I. unfold call_factor in E. destruct c; cbn [pycall_op typed1] in E, T; try discriminate; try (destruct (_ <? _)%nat); injection E as <- <- <-; cbn [In] in I;
  repeat match goal with H : _ /\ _ |- _ => destruct H | H : _ \/ _ |- _ => destruct H | H : False |- _ => destruct H end; subst; apply nth_error_Some; congruence.
Qed.
Lemma session_len cs : length (fold_left kinds_after cs []) = length (nodes_of cs).
Proof. rewrite kinds_nodes. cbn. apply map_length. Qed.
(** the linearised cost is the cost itself *)
Lemma mapping_cost cs w x st : typed [] cs -> inv QUADRATIC cs w -> (forall j, (j < length (nodes_of cs))%nat -> shift (state_of w j) (st j) (inc_of w x j)) ->
  lin_cost w (increments w x) = 2 * lsum cs (call_chi2 st).
Proof.
  intros T V Sh. pose proof (iv_tracks _ _ _ V) as Tr. unfold lin_cost. rewrite (tk_fac _ _ _ Tr).
  rewrite (lsum_seq_list _ (fun '(cl, ids, W) => quad (fc_dim cl) W (fc_res cl (map st ids)) (fc_res cl (map st ids)))%R).
  - rewrite <- lsum_scal. rewrite lsum_flat_map. apply lsum_ext. intros c _. unfold facts, call_chi2. destruct (call_factor c) as [[[cl ids] W]|]; rewrite ?lsum_cons, lsum_nil; lra.
  - intros k [[cl ids] W] E. cbn [Nat.add]. destruct (tk_cls _ _ _ Tr k cl ids W E) as (A & B & C & F). assert (Hk : (k < length (flat_map facts cs))%nat) by (apply nth_error_Some; congruence).
    unfold weight_at. rewrite (ho_rob _ _ _ _ (iv_holds _ _ _ V) k Hk). cbn [robust_eval]. rewrite Rmult_1_l. unfold fdim. rewrite A, C. destruct (facts_in _ _ _ _ _ E) as (c & Ic & Fc). pose proof (typed_in cs c [] T Ic) as Ty.
    assert (X : forall i, (i < fc_dim cl)%nat -> res_at w k i + jac_times w k (increments w x) i = fc_res cl (map st ids) i).
    { intros i Hi. destruct (jac_times_class QUADRATIC cs w k cl ids W x i V E) as [_ ->]. unfold res_at, states_of. rewrite B, (get_nodes_states _ _ _ F). symmetry. apply (call_affine (fold_left kinds_after cs []) c cl ids W); auto.
      - intros j q Hq. destruct (state_kind QUADRATIC cs w j q V Hq) as (_ & _ & K & _). exact K.
      - intros j Hj. apply Sh. rewrite <- session_len. exact (typed_ids _ _ _ _ _ _ Ty Fc Hj). }
    apply quad_ext; auto.
Qed.
(** ** completing the square *)
Lemma lin_cost_gn w x : sym_infos w -> lin_cost w (increments w x) =
  lsum (g_factors (w_graph w)) (fun l => weight_at w l * quad (fdim w l) (f_info (fa w l)) (res_at w l) (res_at w l)) + 2 * gn_rhs w x + gn_form w x x.
Proof.
  intros SI. unfold lin_cost, gn_rhs, gn_form. rewrite <- lsum_scal, <- !lsum_plus. apply lsum_ext. intros l I. specialize (SI l I). rewrite !quad_sym by auto.
  rewrite quad_plus_l, !quad_plus_r. rewrite (quad_comm _ _ (res_at w l) (jac_times _ _ _)) by auto. ring.
Qed.
Lemma gn_square s dx x : wf (s_w s) -> sym_infos (s_w s) -> (forall y, gn_rhs (s_w s) y = gn_form (s_w s) y dx) ->
  lin_cost (s_w s) (increments (s_w s) x) = lin_cost (s_w s) (increments (s_w s) (fun i => - dx i)) + gn_form (s_w s) (fun i => x i + dx i) (fun i => x i + dx i).
Proof.
  intros W SI Hr. rewrite !lin_cost_gn by auto. rewrite !Hr. destruct (build_wf s W) as (b & _ & B). set (n := g_stateDim (w_graph (s_w s))). set (L := s_L (build_info_adjacency b)).
  assert (F : forall u v, gn_form (s_w s) u v = form n L u v) by (intros u v; unfold gn_form, form, n, L; rewrite (normal_matrix _ _ u v W B); reflexivity). rewrite !F.
  rewrite form_plus_l, !form_plus_r. pose proof (form_sym s b x dx W B) as Sy. cbv zeta in Sy. fold n in Sy. fold L in Sy.
  assert (N1 : forall y, form n L (fun i => - dx i) y = - form n L dx y). { intros y. unfold form. rewrite <- sumn_opp. apply sumn_ext; intros. rewrite <- sumn_opp. apply sumn_ext; intros; ring. }
  assert (N2 : forall y, form n L y (fun i => - dx i) = - form n L y dx). { intros y. unfold form. rewrite <- sumn_opp. apply sumn_ext; intros. rewrite <- sumn_opp. apply sumn_ext; intros; ring. }
  rewrite !N1, N2. lra.
Qed.
(** ** increments between two arrangements *)
Definition coord (v : nval) (k : nat) : R := match v with L3 p => nth k [vx p; vy p; vz p] 0 | _ => 0 end.
Definition between (w : world) (st : nat -> nval) : nat -> R :=
  pack (ndim w) (g_active (w_graph w)) (fun l k => coord (st (n_id (nd w l))) k - coord (nst (n_data (nd w l))) k).
Lemma mode_of rob cs w j m v : inv rob cs w -> nth_error (nodes_of cs) j = Some (m, v) -> exists l, get_node w j = Some l /\ n_mode (nd w l) = m /\ n_id (nd w l) = j /\ state_of w j = nst (n_data (nd w l)) /\
  kind_of (state_of w j) = kind_of v.
Proof.
  intros V E. assert (Q : nth_error (fold_left kinds_after cs []) j = Some (kind_of v)) by (rewrite kinds_nodes; cbn [app]; rewrite nth_error_map, E; reflexivity).
  destruct (state_kind rob cs w j _ V Q) as (l & G & K & _). exists l. split; auto. pose proof (ho_mode _ _ _ _ (iv_holds _ _ _ V) j l G) as M. rewrite E in M. injection M as <-. split; auto.
  split; [apply (gd_ids _ (iv_good _ _ _ V) j l G)|]. split; auto. unfold state_of. rewrite G. reflexivity.
Qed.
Lemma standard_active rob cs w j m v l : inv rob cs w -> nth_error (nodes_of cs) j = Some (m, v) -> m <> ANCHOR -> get_node w j = Some l -> exists a, nth_error (g_active (w_graph w)) a = Some l.
Proof.
  intros V E M G. apply In_nth_error. apply (gd_std _ (iv_good _ _ _ V)); [eapply nth_error_In; exact G|]. destruct (mode_of rob cs w j m v V E) as (l' & G' & <- & _). congruence.
Qed.
Lemma between_shift rob cs w st : inv rob cs w -> mapping cs -> rearranged cs (state_of w) st -> forall j, (j < length (nodes_of cs))%nat -> shift (state_of w j) (st j) (inc_of w (between w st) j).
Proof.
  intros V Mp Re j Hj. destruct (nth_error (nodes_of cs) j) as [[m v]|] eqn:E; [|apply nth_error_None in E; lia]. specialize (Re j m v E). specialize (Mp j m v E).
  destruct (mode_of rob cs w j m v V E) as (l & G & M & Id & Es & K). unfold inc_of. rewrite G.
  assert (A : m <> ANCHOR -> (exists p, st j = L3 p) -> shift (state_of w j) (st j) (increments w (between w st) l)).
  { intros NA [p Ep]. destruct (standard_active rob cs w j m v l V E NA G) as [a Ha]. rewrite (Mp NA) in K. destruct (state_of w j) as [| | |q|] eqn:Eq; try discriminate.
    assert (Q : forall k, (k < 3)%nat -> increments w (between w st) l k = coord (L3 p) k - coord (L3 q) k).
    { intros k Hk. rewrite (increments_at w _ a l k (gd_wf _ (iv_good _ _ _ V)) Ha). unfold between, col. rewrite (pack_at (ndim w) _ _ a l k Ha). { rewrite Id, Ep, <- Es. reflexivity. }
      unfold ndim. destruct (gd_ids _ (iv_good _ _ _ V) j l G) as [Ll _]. destruct (gd_kind _ (iv_good _ _ _ V) l Ll) as [-> _]. rewrite <- Es. exact Hk. }
    rewrite Ep. apply shift_point; rewrite Q by lia; cbn; ring. }
  destruct m; [apply A; auto; discriminate| |apply A; auto; discriminate].
  rewrite Re. apply shift_stay. intros k _. unfold increments, is_anchor. rewrite M. reflexivity.
Qed.
(** ** one Gauss-Newton step *)
Lemma held_zero rob cs w x : typed [] cs -> inv rob cs w -> firm w -> Forall solid_call cs -> Forall call_info cs -> rob <> RANSAC -> (forall i, (i < length (nodes_of cs))%nat -> held cs i) ->
  gn_form w x x = 0 -> forall j l k, get_node w j = Some l -> (k < nval_dim (state_of w j))%nat -> increments w x l k = 0.
Proof.
  intros T V Fi So P R Hd Z j l k G Hk. assert (Hj : (j < length (nodes_of cs))%nat) by (rewrite <- (ho_nlen _ _ _ _ (iv_holds _ _ _ V)); apply nth_error_Some; unfold get_node in G; congruence).
  pose proof (held_still rob cs w x T V Fi So P R Z j (Hd j Hj) k Hk) as S. unfold inc_of in S. rewrite G in S. exact S.
Qed.
Section From.
Variables (lin : linear_solver) (cs : list pycall) (k : nat) (la tol : R) (s s' : solver).
Hypothesis (X : exact lin) (T : typed [] cs) (Mp : mapping cs) (So : Forall solid_call cs) (P : Forall call_info cs) (Hd : forall i, (i < length (nodes_of cs))%nat -> held cs i).
Let w := s_w s.
Hypothesis (V : inv QUADRATIC cs w) (Fi : firm w) (E' : solve lin GN k la tol s = Some s').
Lemma from_inv : inv QUADRATIC cs (s_w s').
Proof. clear Fi. destruct (solve_frame _ _ _ _ _ _ _ E') as (K & _ & KK). apply (inv_skel QUADRATIC cs w); auto. Qed.
Lemma from_step : exists dx, (forall y, gn_rhs w y = gn_form w y dx) /\ (forall j, (j < length (nodes_of cs))%nat -> shift (state_of w j) (state_of (s_w s') j) (inc_of w (fun i => - dx i) j)) /\
  rearranged cs (state_of w) (state_of (s_w s')).
Proof.
  pose proof from_inv as V'. pose proof (gd_wf _ (iv_good _ _ _ V)) as Wf.
  destruct (gn_step lin k la tol s s' Wf X (fun b Q => held_regular QUADRATIC cs s b T V Fi So P ltac:(discriminate) Hd Q) E') as (G & Out & dx & Hr & Up). exists dx. split; auto.
  assert (A : forall j m v, nth_error (nodes_of cs) j = Some (m, v) -> match m with ANCHOR => state_of (s_w s') j = state_of w j | _ => exists p q, state_of w j = L3 p /\ state_of (s_w s') j = L3 q /\ L3 q = val_update (L3 p) (inc_of w (fun i => - dx i) j) end).
  { intros j m v Ej. destruct (mode_of QUADRATIC cs w j m v V Ej) as (l & Gl & M & Id & Es & K). destruct (mode_of QUADRATIC cs (s_w s') j m v V' Ej) as (l' & Gl' & _ & _ & Es' & _).
    assert (l' = l) as -> by (unfold get_node in Gl, Gl'; rewrite G in Gl'; unfold w in Gl; congruence).
    assert (B : m <> ANCHOR -> exists p q, state_of w j = L3 p /\ state_of (s_w s') j = L3 q /\ L3 q = val_update (L3 p) (inc_of w (fun i => - dx i) j)).
    { intros NA. destruct (standard_active QUADRATIC cs w j m v l V Ej NA Gl) as [a Ha]. specialize (Up a l Ha). fold w in Up. rewrite <- Es, <- Es' in Up. rewrite (Mp j m v Ej NA) in K. destruct (state_of w j) as [| | |p|]; try discriminate.
      unfold inc_of. rewrite Gl. exists p, (v3add p (dx3 (increments w (fun i => - dx i) l))). split; auto. }
    destruct m; [apply B; discriminate| |apply B; discriminate]. rewrite Es, Es'. apply Out. intros I. apply (wf_active _ Wf) in I. destruct I as [_ I]. fold w in I. congruence. }
  split.
  - intros j Hj. destruct (nth_error (nodes_of cs) j) as [[m v]|] eqn:Ej; [|apply nth_error_None in Ej; lia]. specialize (A j m v Ej).
    assert (B : (exists p q, state_of w j = L3 p /\ state_of (s_w s') j = L3 q /\ L3 q = val_update (L3 p) (inc_of w (fun i => - dx i) j)) -> shift (state_of w j) (state_of (s_w s') j) (inc_of w (fun i => - dx i) j)).
    { intros (p & q & -> & -> & Q). cbn [val_update] in Q. injection Q as ->. apply shift_point; reflexivity. }
    destruct m; [apply B; auto| |apply B; auto]. rewrite A. apply shift_stay. intros i _. unfold inc_of. destruct (get_node w j) as [l|] eqn:Gl; auto. destruct (mode_of QUADRATIC cs w j _ v V Ej) as (l' & Gl' & M & _). assert (l' = l) as -> by congruence. unfold increments, is_anchor. rewrite M. reflexivity.
  - intros j m v Ej. specialize (A j m v Ej). destruct m; auto; destruct A as (p & q & _ & -> & _); eauto.
Qed.
Lemma from_best st : rearranged cs (state_of (s_w s')) st -> chi2_of (s_w s') <= lsum cs (call_chi2 st) /\
  (lsum cs (call_chi2 st) <= chi2_of (s_w s') -> forall j, (j < length (nodes_of cs))%nat -> st j = state_of (s_w s') j).
Proof.
  intros Re'. pose proof from_inv as V'. pose proof (gd_wf _ (iv_good _ _ _ V)) as Wf. destruct from_step as (dx & Hr & Sh & Rs).
  destruct (inv_infos QUADRATIC cs w V P ltac:(discriminate)) as (Sy & Ps & We).
  assert (Re : rearranged cs (state_of w) st). { intros j m v Ej. specialize (Re' j m v Ej). specialize (Rs j m v Ej). destruct m; auto. congruence. }
  pose proof (between_shift QUADRATIC cs w st V Mp Re) as Bt. set (x := between w st) in *.
  pose proof (mapping_cost cs w x st T V Bt) as C1. pose proof (mapping_cost cs w (fun i => - dx i) (state_of (s_w s')) T V Sh) as C2.
  rewrite (tracks_chi2 _ cs _ (iv_tracks _ _ _ V')). pose proof (gn_square s dx x Wf Sy Hr) as Q. fold w in Q. rewrite C1, C2 in Q.
  assert (N : 0 <= gn_form w (fun i => x i + dx i) (fun i => x i + dx i)).
  { unfold gn_form. apply lsum_nonneg. intros l I. rewrite quad_sym by (apply Sy; auto). apply Rmult_le_pos; [left; apply We; auto | apply Ps; auto]. }
  split; [lra|]. intros L j Hj. assert (Z : gn_form w (fun i => x i + dx i) (fun i => x i + dx i) = 0) by lra.
  destruct (nth_error (nodes_of cs) j) as [[m v]|] eqn:Ej; [|apply nth_error_None in Ej; lia].
  destruct (mode_of QUADRATIC cs w j m v V Ej) as (l & Gl & M & Id & Es & K). specialize (Re' j m v Ej). specialize (Rs j m v Ej). specialize (Bt j Hj). specialize (Sh j Hj).
  assert (B : m <> ANCHOR -> (exists p, st j = L3 p) -> (exists p, state_of (s_w s') j = L3 p) -> st j = state_of (s_w s') j).
  { intros NA [p Ep] [q Eq]. rewrite (Mp j m v Ej NA) in K. pose proof (fun i => held_zero QUADRATIC cs w (fun i => x i + dx i) T V Fi So P ltac:(discriminate) Hd Z j l i Gl) as Hz.
    unfold inc_of in Bt, Sh. rewrite Gl in Bt, Sh. destruct (state_of w j) as [| | |o|]; try discriminate. rewrite Ep in *. rewrite Eq in *.
    apply shift_landmark in Bt. apply shift_landmark in Sh. destruct Bt as (p' & E1 & B0 & B1 & B2). destruct Sh as (q' & E2 & S0 & S1 & S2). injection E1 as <-. injection E2 as <-.
    assert (H : forall i, (i < 3)%nat -> increments w x l i = increments w (fun i => - dx i) l i).
    { intros i Hi. specialize (Hz i Hi). unfold increments in *. destruct (is_anchor _); auto. lra. }
    rewrite H in B0, B1, B2 by lia. f_equal. destruct p, q. cbn in *. f_equal; congruence. }
  destruct m; [apply B; auto; discriminate|auto|apply B; auto; discriminate].
Qed.
End From.
Section Solved.
Variables (lin : linear_solver) (cs : list pycall) (k : nat) (la tol : R) (s s' : solver).
Hypothesis (X : exact lin) (T : typed [] cs) (Mp : mapping cs) (So : Forall solid_call cs) (P : Forall call_info cs) (Hd : forall i, (i < length (nodes_of cs))%nat -> held cs i).
Hypothesis (E : pycalls lin QUADRATIC (solver_new world_new) cs = Some s) (E' : solve lin GN k la tol s = Some s').
Let w := s_w s.
Lemma mapping_inv : inv QUADRATIC cs w /\ firm w.
Proof. destruct (session_inv lin QUADRATIC cs T) as (s0 & E0 & V & Fi). rewrite E in E0. injection E0 as <-. split; auto. Qed.
Lemma mapping_inv' : inv QUADRATIC cs (s_w s').
Proof. destruct mapping_inv as [V _]. exact (from_inv lin cs k la tol s s' V E'). Qed.
Lemma mapping_step : exists dx, (forall y, gn_rhs w y = gn_form w y dx) /\ (forall j, (j < length (nodes_of cs))%nat -> shift (state_of w j) (state_of (s_w s') j) (inc_of w (fun i => - dx i) j)) /\
  rearranged cs (state_of w) (state_of (s_w s')).
Proof. destruct mapping_inv as [V Fi]. exact (from_step lin cs k la tol s s' X T Mp So P Hd V Fi E'). Qed.
Lemma mapping_best st : rearranged cs (state_of (s_w s')) st -> chi2_of (s_w s') <= lsum cs (call_chi2 st) /\
  (lsum cs (call_chi2 st) <= chi2_of (s_w s') -> forall j, (j < length (nodes_of cs))%nat -> st j = state_of (s_w s') j).
Proof. destruct mapping_inv as [V Fi]. exact (from_best lin cs k la tol s s' X T Mp So P Hd V Fi E' st). Qed.
End Solved.
(** ** the mean of the observations *)
Lemma round_quad W r : round_info W -> quad 3 W r r = W 0%nat 0%nat * (r 0%nat * r 0%nat + r 1%nat * r 1%nat + r 2%nat * r 2%nat).
Proof.
  intros H. unfold quad. cbn [sumn]. rewrite (H 0 1)%nat, (H 0 2)%nat, (H 1 0)%nat, (H 1 1)%nat, (H 1 2)%nat, (H 2 0)%nat, (H 2 1)%nat, (H 2 2)%nat by lia. cbn. ring.
Qed.
Lemma rigid_sees obs T p : rigid T -> v3sqn (res_landmark3d obs T p) = v3sqn (v3sub p (in_map (P3 T) obs)).
Proof.
  intros ((O & _) & _). unfold orthogonal in O. assert (A : res_landmark3d obs T p = m3app (m3tr (mR T)) (v3sub p (in_map (P3 T) obs))).
  { unfold res_landmark3d, in_map, se3_transform, se3_inv. cbn [mR mt]. assert (H : v3sub (v3add (m3app (m3tr (mR T)) p) (m3app (m3opp (m3tr (mR T))) (mt T))) obs = v3sub (m3app (m3tr (mR T)) (v3sub p (mt T))) (m3app (m3mul (m3tr (mR T)) (mR T)) obs)).
    { rewrite O. lina. } rewrite H. lina. }
  rewrite A. assert (B : v3sqn (m3app (m3tr (mR T)) (v3sub p (in_map (P3 T) obs))) = v3dot (v3sub p (in_map (P3 T) obs)) (m3app (m3mul (mR T) (m3tr (mR T))) (v3sub p (in_map (P3 T) obs)))).
  { generalize (v3sub p (in_map (P3 T) obs)). intros u. unfold v3sqn, v3dot. lina. }
  rewrite B, (m3_linv_rinv _ _ O). unfold v3sqn, v3dot. lina.
Qed.
Definition step_to (p u : V3) (e : R) : nval := L3 (v3add p (v3scal e u)).
Lemma other_call ks c j v st : typed1 ks c -> nth_error ks j = Some KL3 -> (forall obs i W u, c <> CLandmark3d obs i j W u) -> call_chi2 (set_st st j v) c = call_chi2 st c.
Proof.
  intros T K N. unfold call_chi2. destruct (call_factor c) as [[[cl ids] W]|] eqn:E; auto.
  rewrite (map_ext_in (set_st st j v) st ids); auto. intros i Hi. unfold set_st. destruct (Nat.eqb_spec i j) as [->|]; auto. exfalso.
  unfold call_factor in E. destruct c; cbn [pycall_op typed1] in E, T; try discriminate; try (destruct (_ <? _)%nat); injection E as <- <- <-; cbn [In] in Hi;
  repeat match goal with H : _ /\ _ |- _ => destruct H | H : _ \/ _ |- _ => destruct H | H : False |- _ => destruct H end; subst; try congruence; eapply N; reflexivity.
Qed.
Lemma landmark_call obs i j W u st T p : st i = P3 T -> rigid T -> st j = L3 p -> round_info W -> call_chi2 st (CLandmark3d obs i j W u) = 1 / 2 * (W 0%nat 0%nat * v3sqn (v3sub p (in_map (st i) obs))).
Proof.
  intros Ei Rg Ej Ro. rewrite Ei. rewrite <- (rigid_sees obs T p Rg). unfold call_chi2, call_factor. cbn [pycall_op].
  destruct (i <? j)%nat; cbn [map fc_dim fc_res c_landmark3d]; rewrite Ei, Ej, (round_quad W _ Ro); cbn [lvec l3 nth]; unfold v3sqn, v3dot; ring.
Qed.
Lemma line_min A B : (forall e, 0 <= e * B + e * e * A) -> 0 <= A -> B = 0.
Proof.
  intros H P. destruct (Req_dec B 0) as [|N]; auto. exfalso. specialize (H (- B / (2 * (A + 1)))). 
  assert (Q : - B / (2 * (A + 1)) * B + - B / (2 * (A + 1)) * (- B / (2 * (A + 1))) * A = - (B * B) * (A + 2) / (4 * (A + 1) * (A + 1))) by (field; lra).
  rewrite Q in H. assert (0 < B * B * (A + 2) / (4 * (A + 1) * (A + 1))). { apply Rdiv_lt_0_compat; [|nra]. apply Rmult_lt_0_compat; [nra|lra]. }
  unfold Rdiv in *. nra.
Qed.
Section Mean.
Variables (cs : list pycall) (st : nat -> nval) (j : nat) (p : V3).
Hypothesis (T : typed [] cs) (K : nth_error (fold_left kinds_after cs []) j = Some KL3) (Ej : st j = L3 p).
Hypothesis (Ob : forall obs i W u, In (CLandmark3d obs i j W u) cs -> i <> j /\ round_info W /\ 0 <= W 0%nat 0%nat /\ exists A, st i = P3 A /\ rigid A).
Hypothesis (Best : forall e u, lsum cs (call_chi2 st) <= lsum cs (call_chi2 (set_st st j (step_to p u e)))).
Lemma line_cost u e : lsum cs (call_chi2 (set_st st j (step_to p u e))) =
  lsum cs (call_chi2 st) + (e * observed cs j (fun obs i => v3dot u (v3sub p (in_map (st i) obs))) + e * e * (1 / 2 * observed cs j (fun _ _ => v3sqn u))).
Proof using T K Ej Ob.
  clear Best. assert (Ty : forall c, In c cs -> typed1 (fold_left kinds_after cs []) c) by (intros; apply typed_in; auto).
  unfold observed. rewrite <- !lsum_scal, <- !lsum_plus. apply lsum_ext. intros c Ic.
  assert (Oth : (forall obs i W u, c <> CLandmark3d obs i j W u) -> call_chi2 (set_st st j (step_to p u e)) c = call_chi2 st c) by (intros N; apply (other_call (fold_left kinds_after cs [])); auto).
  destruct c; try (rewrite Oth by (intros; discriminate); ring).
  destruct (Nat.eqb_spec idL j) as [->|Ne]; [|rewrite Oth by (intros; intros Q; injection Q; auto); ring].
  destruct (Ob _ _ _ _ Ic) as (Nij & Ro & _ & A & Ei & Rg).
  rewrite (landmark_call obs idP j info _ st A p Ei Rg Ej Ro). assert (Ei' : set_st st j (step_to p u e) idP = st idP) by (unfold set_st; destruct (Nat.eqb_spec idP j); congruence).
  rewrite (landmark_call obs idP j info _ _ A (v3add p (v3scal e u))); auto; [|congruence|unfold set_st; rewrite Nat.eqb_refl; reflexivity]. rewrite Ei'.
  generalize (in_map (st idP) obs). intros m. unfold v3sqn, v3dot, v3sub, v3add, v3scal. cbn [vx vy vz]. field.
Qed.
Lemma mean_of u : observed cs j (fun obs i => v3dot u (v3sub p (in_map (st i) obs))) = 0.
Proof using T K Ej Ob Best.
  apply (line_min (1 / 2 * observed cs j (fun _ _ => v3sqn u))).
  - intros e. pose proof (Best e u) as B. rewrite line_cost in B. lra.
  - apply Rmult_le_pos; [lra|]. unfold observed. apply lsum_nonneg. intros c Ic. destruct c; try lra. destruct (Nat.eqb_spec idL j) as [->|]; [|lra]. destruct (Ob _ _ _ _ Ic) as (_ & _ & N & _). apply Rmult_le_pos; auto. unfold v3sqn, v3dot. nra.
Qed.
Lemma observed_plus f g : observed cs j (fun o i => f o i - g o i) = observed cs j f - observed cs j g.
Proof using. unfold observed. replace (lsum cs _ - lsum cs _) with (lsum cs (fun c => match c with CLandmark3d obs i j' W _ => if (j' =? j)%nat then W 0%nat 0%nat * f obs i else 0 | _ => 0 end) + -1 * lsum cs (fun c => match c with CLandmark3d obs i j' W _ => if (j' =? j)%nat then W 0%nat 0%nat * g obs i else 0 | _ => 0 end)) by ring.
  rewrite <- lsum_scal, <- lsum_plus. apply lsum_ext. intros c _. destruct c; try ring. destruct (Nat.eqb _ _); ring.
Qed.
Lemma observed_scal a f : observed cs j (fun o i => a * f o i) = a * observed cs j f.
Proof using. unfold observed. rewrite <- lsum_scal. apply lsum_ext. intros c _. destruct c; try ring. destruct (Nat.eqb _ _); ring. Qed.
Lemma mean_coord (k : V3 -> R) u : (forall q, v3dot u q = k q) -> (forall a b, k (v3sub a b) = k a - k b) -> k p * observed cs j (fun _ _ => 1) = observed cs j (fun obs i => k (in_map (st i) obs)).
Proof using T K Ej Ob Best.
  intros Hu Hk. pose proof (mean_of u) as M. assert (Q : observed cs j (fun obs i => v3dot u (v3sub p (in_map (st i) obs))) = observed cs j (fun obs i => k p * 1 - k (in_map (st i) obs))).
  { unfold observed. apply lsum_ext. intros c _. destruct c; auto. destruct (Nat.eqb _ _); auto. rewrite Hu, Hk. ring. }
  rewrite Q, (observed_plus (fun _ _ => k p * 1)), (observed_scal (k p) (fun _ _ => 1)) in M. lra.
Qed.
End Mean.
