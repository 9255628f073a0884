(** Gauss-Newton optimality, anchors, Levenberg-Marquardt. *)
Require Import Reals List Arith Lia Lra Bool.
From Verif Require Import SO3 AngleProofs Nodes NodesProofs Robust RobustProofs Graph GraphProofs Sums Solve SpecSolve SolveIndex SolveFrame SolveSums SolveBuild.
Import ListNotations.
Local Open Scope R_scope.

(** ** increments *)
Fixpoint pack (dim : loc -> nat) (s : list loc) (d : loc -> nat -> R) (p : nat) : R :=
  match s with [] => 0 | n :: r => if Nat.ltb p (dim n) then d n p else pack dim r d (p - dim n) end.
Lemma pack_at dim d s : forall m n k, nth_error s m = Some n -> (k < dim n)%nat -> pack dim s d (before dim s m + k)%nat = d n k.
Proof.
  induction s as [|a s IH]; intros [|m] n k H L; try discriminate; cbn [pack].
  - cbn in H. injection H as ->. change (before dim (n :: s) 0) with 0%nat. rewrite Nat.add_0_l. destruct (Nat.ltb_spec k (dim n)); [auto|lia].
  - cbn in H. pose proof (eq_refl : before dim (a :: s) (S m) = (dim a + before dim s m)%nat) as E. rewrite E.
    destruct (Nat.ltb_spec (dim a + before dim s m + k) (dim a)); [lia|].
    replace (dim a + before dim s m + k - dim a)%nat with (before dim s m + k)%nat by lia. auto.
Qed.
Lemma jac_dir_ext dim J l ns d d' : (forall n k, In n ns -> (k < dim n)%nat -> d n k = d' n k) ->
  forall off, jac_dir dim J l off ns d = jac_dir dim J l off ns d'.
Proof.
  induction ns as [|n ns IH]; intros H off; cbn; auto. f_equal.
  - apply sumn_ext. intros k L. rewrite H; cbn; auto.
  - apply IH. intros; apply H; cbn; auto.
Qed.
Lemma pack_increments w d l : wf w -> In l (g_factors (w_graph w)) -> (forall n k, n_mode (nd w n) = ANCHOR -> d n k = 0) ->
  jac_times w l (increments w (pack (ndim w) (g_active (w_graph w)) d)) = jac_times w l d.
Proof.
  intros H I A. apply FunctionalExtensionality.functional_extensionality. intros i. apply jac_dir_ext. intros n k Hn Hk.
  unfold increments. destruct (is_anchor (nd w n)) eqn:An.
  - symmetry. apply A. apply is_anchor_true; auto.
  - pose proof (wf_neigh' _ _ _ H I Hn An) as Ia. unfold col. rewrite (pack_at (ndim w) d _ _ n); auto. apply index_of_nth; auto.
Qed.
Lemma lin_cost_pack w d : wf w -> (forall n k, n_mode (nd w n) = ANCHOR -> d n k = 0) ->
  lin_cost w (increments w (pack (ndim w) (g_active (w_graph w)) d)) = lin_cost w d.
Proof. intros H A. apply lsum_ext. intros l I. rewrite (pack_increments w d l); auto. Qed.

(** ** the cost as a quadratic polynomial *)
Definition form (n : nat) (L : nat -> nat -> R) (x y : nat -> R) : R := sumn n (fun i => sumn n (fun j => x i * L i j * y j)).
Lemma form_quad n L x y : form n L x y = quad n L x y.
Proof. reflexivity. Qed.
Lemma lin_cost_poly s s' x : wf (s_w s) -> sym_infos (s_w s) -> built s s' ->
  let n := g_stateDim (w_graph (s_w s)) in let L := s_L (build_info_adjacency s') in let b := s_b (build_info_adjacency s') in
  lin_cost (s_w s) (increments (s_w s) x) =
  lsum (g_factors (w_graph (s_w s))) (fun l => weight_at (s_w s) l * quad (fdim (s_w s) l) (f_info (fa (s_w s) l)) (res_at (s_w s) l) (res_at (s_w s) l))
  + 2 * sumn n (fun i => b i * x i) + form n L x x.
Proof.
  intros H SI B n L b. unfold form. unfold n, L, b. rewrite (normal_matrix _ _ x x H B), (normal_rhs _ _ x H B).
  rewrite <- lsum_scal, <- !lsum_plus. apply lsum_ext. intros l I. specialize (SI l I). rewrite !quad_sym by auto.
  rewrite quad_plus_l, !quad_plus_r. rewrite (quad_comm _ _ (res_at (s_w s) l) (jac_times _ _ _)) by auto. ring.
Qed.
Lemma form_sym s s' x y : wf (s_w s) -> built s s' ->
  let n := g_stateDim (w_graph (s_w s)) in let L := s_L (build_info_adjacency s') in form n L x y = form n L y x.
Proof.
  intros H B n L. unfold form, n, L. rewrite (normal_matrix _ _ x y H B), (normal_matrix _ _ y x H B).
  apply lsum_ext. intros l I. f_equal. apply quad_comm. intros i j _ _. unfold upper_sym.
  destruct (Nat.leb_spec i j), (Nat.leb_spec j i); auto; [|lia]. replace i with j by lia. reflexivity.
Qed.
Lemma unit_form n L i j : (i < n)%nat -> (j < n)%nat ->
  form n L (fun k => if Nat.eqb k i then 1 else 0) (fun k => if Nat.eqb k j then 1 else 0) = L i j.
Proof.
  intros Hi Hj. unfold form. rewrite (sumn_single n i); auto.
  - rewrite (sumn_single n j); auto. rewrite !Nat.eqb_refl. ring.
    intros k _ Hk. destruct (Nat.eqb_spec k j); [congruence|ring].
  - intros k _ Hk. apply sumn_zero. intros q _. destruct (Nat.eqb_spec k i); [congruence|ring].
Qed.
Lemma weight_nonneg w l : f_rob (fa w l) <> RANSAC -> 0 <= weight_at w l.
Proof. intros H. unfold weight_at. left. apply robust_bounds; auto. apply sqrt_pos. Qed.
Lemma no_ransac_nonneg w : (forall l, In l (g_factors (w_graph w)) -> f_rob (fa w l) <> RANSAC) -> weights_nonneg w.
Proof. intros H l I. apply weight_nonneg; auto. Qed.
Lemma form_psd s s' x : wf (s_w s) -> built s s' -> sym_infos (s_w s) -> psd_infos (s_w s) -> weights_nonneg (s_w s) ->
  0 <= form (g_stateDim (w_graph (s_w s))) (s_L (build_info_adjacency s')) x x.
Proof.
  intros H B S P Wn. unfold form. rewrite (normal_matrix _ _ x x H B). apply lsum_nonneg. intros l I.
  rewrite quad_sym by auto. apply Rmult_le_pos. apply Wn; auto. apply P; auto.
Qed.
Lemma form_plus_l n L x y z : form n L (fun i => x i + y i) z = form n L x z + form n L y z.
Proof. apply quad_plus_l. Qed.
Lemma form_plus_r n L x y z : form n L x (fun i => y i + z i) = form n L x y + form n L x z.
Proof. apply quad_plus_r. Qed.
Lemma form_ext n L L' x y : (forall i j, (i < n)%nat -> (j < n)%nat -> L i j = L' i j) -> form n L x y = form n L' x y.
Proof. intros H. apply sumn_ext; intros i Hi. apply sumn_ext; intros j Hj. rewrite H; auto. Qed.
Lemma form_solution n L b dx x : (forall i, (i < n)%nat -> sumn n (fun j => L i j * dx j) = b i) ->
  sumn n (fun i => b i * x i) = form n L x dx.
Proof.
  intros H. unfold form. apply sumn_ext; intros i Hi. rewrite <- H by auto. rewrite sumn_mult_r. apply sumn_ext; intros j _. ring.
Qed.

Lemma gn_ok lin u s : wf (s_w s) -> exists s1 s', build_adjacency s = Some s' /\ built s s' /\ optimize_gauss_newton lin u s = Some s1 /\
  s_w s1 = s_w s' /\ s_b s1 = s_b (build_info_adjacency s') /\ (u = false -> s_L s1 = s_L (build_info_adjacency s')) /\
  (u = true -> forall i j, (i < g_stateDim (w_graph (s_w s)))%nat ->
      s_L s1 i j = s_L (build_info_adjacency s') i j + if Nat.eqb i j then s_lambda s else 0) /\
  s_dx s1 = lin (g_stateDim (w_graph (s_w s))) (s_L s1) (s_b s1) /\ s_lambda s1 = s_lambda s /\ s_tol s1 = s_tol s.
Proof.
  intros H. destruct (build_wf s H) as (s' & E & B). unfold optimize_gauss_newton, build_problem. rewrite E.
  do 2 eexists. split; [reflexivity|]. split; [exact B|]. split; [reflexivity|].
  destruct (bt_rest _ _ B) as (_ & _ & _ & R4 & R5 & _).
  destruct u; cbn [s_w s_b s_L s_dx s_lambda s_tol build_info_adjacency s_N s_diag]; rewrite (sk_graph _ _ (bt_skel _ _ B)); repeat split; auto; try discriminate.
  intros _ i j Li. rewrite (bt_N _ _ B). rewrite R4.
  destruct (Nat.eqb_spec i j) as [->|]; cbn [andb]; [|ring]. apply Nat.ltb_lt in Li. rewrite Li. ring.
Qed.

(** the Gauss-Newton increment minimises the linearised cost *)
Lemma gn_minimises lin s s1 : wf (s_w s) -> sym_infos (s_w s) -> psd_infos (s_w s) -> weights_nonneg (s_w s) ->
  optimize_gauss_newton lin false s = Some s1 ->
  (forall i, (i < g_stateDim (w_graph (s_w s)))%nat -> sumn (g_stateDim (w_graph (s_w s))) (fun j => s_L s1 i j * s_dx s1 j) = s_b s1 i) ->
  forall d, (forall n k, n_mode (nd (s_w s) n) = ANCHOR -> d n k = 0) ->
  lin_cost (s_w s) (increments (s_w s) (fun i => - s_dx s1 i)) <= lin_cost (s_w s) d.
Proof.
  intros H SI P Wn E X d A. destruct (gn_ok lin false s H) as (s1' & s' & _ & B & E' & _ & Eb & EL & _).
  rewrite E in E'. injection E' as <-. specialize (EL eq_refl). rewrite EL, Eb in X.
  rewrite <- (lin_cost_pack (s_w s) d H A). rewrite !(lin_cost_poly s s' _ H SI B).
  set (x := pack (ndim (s_w s)) (g_active (w_graph (s_w s))) d). set (n := g_stateDim (w_graph (s_w s))) in *.
  set (L := s_L (build_info_adjacency s')) in *. set (b := s_b (build_info_adjacency s')) in *. set (dx := s_dx s1) in *.
  rewrite !(form_solution n L b dx _ X).
  pose proof (form_psd s s' (fun i => x i + dx i) H B SI P Wn) as Q. fold n in Q. fold L in Q.
  rewrite form_plus_l, !form_plus_r in Q.
  pose proof (form_sym s s' x dx H B) as Sy. cbv zeta in Sy. fold n in Sy. fold L in Sy.
  assert (N1 : forall y, form n L (fun i => - dx i) y = - form n L dx y).
  { intros y. unfold form. rewrite <- sumn_opp. apply sumn_ext; intros. rewrite <- sumn_opp. apply sumn_ext; intros; ring. }
  assert (N2 : forall y, form n L y (fun i => - dx i) = - form n L y dx).
  { intros y. unfold form. rewrite <- sumn_opp. apply sumn_ext; intros. rewrite <- sumn_opp. apply sumn_ext; intros; ring. }
  rewrite !N1, N2. lra.
Qed.
(** ... and is what the nodes receive *)
Lemma gn_updates w dx m l : wf w -> nth_error (g_active (w_graph w)) m = Some l ->
  n_data (nd (update_nodes_w w dx) l) = mkN (val_update (nst (n_data (nd w l))) (fun k => increments w (fun i => - dx i) l k)) (nax (n_data (nd w l))).
Proof.
  intros H Hm. destruct (update_nodes_spec w dx) as (_ & _ & _ & _ & U & _). destruct (wf_active _ H l (nth_error_In _ _ Hm)) as [Ll An].
  rewrite (U (wf_active_nodup _ H) m l Hm Ll). unfold update_node, node_set_data, node_update; cbn [n_data nst nax]. f_equal.
  unfold increments. apply is_anchor_false in An. rewrite An.
  rewrite (index_of_unique _ _ _ (wf_active_nodup _ H) Hm). reflexivity.
Qed.

(** ** what stays *)
Lemma gn_frame lin u s s1 : optimize_gauss_newton lin u s = Some s1 -> skel (s_w s) (s_w s1) /\ w_nodes (s_w s1) = w_nodes (s_w s) /\ s_lambda s1 = s_lambda s /\ s_tol s1 = s_tol s.
Proof.
  unfold optimize_gauss_newton, build_problem. destruct (build_adjacency s) as [s'|] eqn:E; [|discriminate].
  apply build_skel_out in E. intros X; injection X as <-. destruct u; cbn; exact E.
Qed.
Lemma lm_iter_frame lin s s' e : lm_iter lin s = Some (s', e) -> skel (s_w s) (s_w s') /\
  (forall l, ~ In l (g_active (w_graph (s_w s))) -> nd (s_w s') l = nd (s_w s) l) /\ s_tol s' = s_tol s.
Proof.
  unfold lm_iter. destruct (optimize_gauss_newton lin true s) as [s1|] eqn:E; [|discriminate].
  destruct (gn_frame _ _ _ _ E) as (S1 & N1 & _ & T1). rewrite chi2_false. cbn [with_world s_w update_nodes].
  set (w2 := sync_aux (s_w s1)). destruct (sync_aux_spec (s_w s1)) as (S2 & F2 & N2). fold w2 in S2, F2, N2.
  change (s_dx (with_world s1 w2)) with (s_dx s1).
  set (w3 := update_nodes_w w2 (s_dx s1)). destruct (update_nodes_spec w2 (s_dx s1)) as (S3 & F3 & A3 & N3 & _). fold w3 in S3, F3, A3, N3.
  set (c := chi2 true w3). assert (Ec : skel w3 (fst c) /\ w_nodes (fst c) = w_nodes w3).
  { unfold c, chi2. change (fun '(w, t) l => let w' := eval_factor_chi2 w l in (w', (t + f_chi2 (fa w' l))%R)) with (chi2_step true).
    assert (G : forall ls w t, fst (fold_left (chi2_step true) ls (w, t)) = fold_left eval_factor_chi2 ls w).
    { induction ls; intros; cbn [fold_left]; auto. change (chi2_step true (w, t) a) with (eval_factor_chi2 w a, (t + f_chi2 (fa (eval_factor_chi2 w a) a))%R). auto. }
    rewrite G. split; [apply skel_chi2 | apply (chi2_world_spec w3)]. }
  destruct c as [w4 x]. cbn [fst] in Ec. destruct Ec as (S4 & N4).
  assert (SK : skel (s_w s) w4) by (eapply skel_trans; [|exact S4]; eapply skel_trans; [|exact S3]; eapply skel_trans; eauto).
  assert (NN : forall l, ~ In l (g_active (w_graph (s_w s))) -> nd w4 l = nd (s_w s) l).
  { intros l I. rewrite (nd_same w4 w3) by auto. rewrite N3 by (rewrite (sk_graph _ _ S2), (sk_graph _ _ S1); auto).
    rewrite N2, (sk_graph _ _ S1). replace (mem l (g_active (w_graph (s_w s)))) with false. cbn. apply nd_same; auto.
    symmetry. apply not_true_is_false. intros M. apply mem_In in M. auto. }
  destruct (Rltb _ 0); [|destruct (Rltb _ _)]; intros X; injection X as <- <-; cbn; auto.
  destruct (sync_state_spec w4) as (S5 & F5 & N5). split; [eapply skel_trans; eauto|]. split; auto.
  intros l I. rewrite N5, (sk_graph _ _ SK). replace (mem l (g_active (w_graph (s_w s)))) with false. cbn. auto.
  symmetry. apply not_true_is_false. intros M. apply mem_In in M. auto.
Qed.
Lemma lm_iter_wf lin s : wf (s_w s) -> exists s' e, lm_iter lin s = Some (s', e).
Proof.
  intros H. unfold lm_iter. destruct (gn_ok lin true s H) as (s1 & s' & _ & _ & -> & _).
  rewrite chi2_false. destruct (chi2 true _) as [w4 x]. destruct (Rltb _ 0); [|destruct (Rltb _ _)]; eauto.
Qed.

(** ** the loop *)
Lemma iters_frame lin es s s' : iters lin es s s' -> skel (s_w s) (s_w s') /\
  (forall l, ~ In l (g_active (w_graph (s_w s))) -> nd (s_w s') l = nd (s_w s) l) /\ s_tol s' = s_tol s.
Proof.
  induction 1. { split; [apply skel_refl|auto]. }
  destruct (lm_iter_frame _ _ _ _ H) as (A & B & C). destruct IHiters as (D & E & F). split; [eapply skel_trans; eauto|]. split; [|congruence].
  intros l I. rewrite E, B; auto. rewrite (sk_graph _ _ A); auto.
Qed.
Lemma lm_loop_spec lin maxIters : forall fuel iter s s' k, (iter < maxIters \/ iter = 0)%nat ->
  lm_loop lin fuel iter maxIters s = Some (s', k) ->
  exists es e, iters lin (es ++ [e]) s s' /\ ~ In Converged es /\ (iter + length es < Nat.max 1 maxIters)%nat /\
    (e = Converged /\ k = (iter + length es + 1)%nat \/ e <> Converged /\ k = 0%nat /\ (iter + length es + 1 = Nat.max 1 maxIters)%nat).
Proof.
  induction fuel as [|fuel IH]; intros iter s s' k Hi H; [discriminate|]. cbn in H.
  destruct (lm_iter lin s) as [[s1 e]|] eqn:E; [|discriminate].
  assert (Stop : forall s', s1 = s' -> iters lin ([] ++ [e]) s s') by (intros ? <-; econstructor; eauto; constructor).
  assert (Go : e <> Converged -> (if (S iter <? maxIters)%nat then lm_loop lin fuel (S iter) maxIters s1 else Some (s1, 0%nat)) = Some (s', k) ->
     exists es e, iters lin (es ++ [e]) s s' /\ ~ In Converged es /\ (iter + length es < Nat.max 1 maxIters)%nat /\
    (e = Converged /\ k = (iter + length es + 1)%nat \/ e <> Converged /\ k = 0%nat /\ (iter + length es + 1 = Nat.max 1 maxIters)%nat)).
  { intros N G. destruct (Nat.ltb_spec (S iter) maxIters) as [L|L].
    - destruct (IH (S iter) s1 s' k ltac:(lia) G) as (es & e' & I & NI & B & D). exists (e :: es), e'. cbn [app length]. split; [econstructor; eauto|].
      split. { cbn. intros [X|X]; congruence || auto. } split; [lia|]. destruct D as [[D1 D2]|(D1 & D2 & D3)]; [left|right]; repeat split; auto; lia.
    - injection G as <- <-. exists [], e. split; [apply Stop; auto|]. cbn [app length In]. split; auto. split; [lia|]. right. repeat split; auto. lia. }
  destruct e; auto; try (apply Go; [discriminate | exact H]).
  injection H as <- <-. exists [], Converged. split; [apply Stop; auto|]. cbn [app length In]. split; auto. split; [lia|]. left. split; auto. lia.
Qed.
Lemma lm_loop_total lin maxIters : forall fuel iter s, wf (s_w s) -> (0 < fuel)%nat -> (maxIters <= fuel + iter)%nat ->
  exists s' k, lm_loop lin fuel iter maxIters s = Some (s', k).
Proof.
  induction fuel as [|fuel IH]; intros iter s H F L; [lia|]. cbn. destruct (lm_iter_wf lin s H) as (s1 & e & E). rewrite E.
  destruct (lm_iter_frame _ _ _ _ E) as (S1 & _). pose proof (skel_wf _ _ S1 H) as H1.
  assert (G : exists s' k, (if (S iter <? maxIters)%nat then lm_loop lin fuel (S iter) maxIters s1 else Some (s1, 0%nat)) = Some (s', k)).
  { destruct (Nat.ltb_spec (S iter) maxIters); eauto. apply IH; auto; lia. }
  destruct e; eauto.
Qed.

(** ** chi2 along the loop *)
Lemma gn_chi2 lin u s s1 : valid_factors (s_w s) -> optimize_gauss_newton lin u s = Some s1 ->
  lsum (g_factors (w_graph (s_w s1))) (fun l => f_chi2 (fa (s_w s1) l)) = chi2_of (s_w s).
Proof.
  intros V E. destruct (gn_frame _ _ _ _ E) as (SK & _). rewrite (sk_graph _ _ SK). apply lsum_ext. intros l I.
  unfold optimize_gauss_newton, build_problem in E. destruct (build_adjacency s) as [s'|] eqn:Eb; [|discriminate].
  assert (X : s_w s1 = s_w s') by (injection E as <-; destruct u; reflexivity). rewrite X. clear E X SK.
  unfold build_adjacency in Eb. destruct (index_nodes (s_w s)) as [m N]. destruct (negb _); [discriminate|].
  destruct (sp_insert_all _ _ _ _); [|discriminate]. destruct (sp_insert_all _ _ _ _); [|discriminate]. injection Eb as <-. cbn [s_w].
  set (w1 := eval_factors (s_w s)). destruct (eval_weights_spec w1 (g_factors (w_graph w1))) as (_ & _ & _ & E4). rewrite E4.
  destruct (eval_factors_spec (s_w s)) as (_ & _ & _ & D). fold w1 in D.
  assert (F : f_chi2 (fa w1 l) = fchi2 (s_w s) l).
  { rewrite D. pose proof (V l I) as L. apply Nat.ltb_lt in L. apply mem_In in I. rewrite I, L. reflexivity. }
  destruct (andb _ _); auto. unfold weightG. destruct (Nat.eqb _ 0); auto.
Qed.
Lemma val_update_set v d : val_set (val_update v d) = val_update v d.
Proof. destruct v; cbn; auto. rewrite wrap3_id; auto. apply wrap3_wrapped. Qed.
Lemma chi2_of_wrap w w' : skel w w' -> wrap_ok w ->
  (forall l, nst (n_data (nd w' l)) = nst (n_data (nd w l)) \/ (In l (g_active (w_graph w)) /\ nst (n_data (nd w' l)) = val_set (nst (n_data (nd w l))))) ->
  chi2_of w' = chi2_of w.
Proof.
  intros SK [O|O] H.
  - apply chi2_of_skel; auto. intros n. destruct (H n) as [E|[I E]]; auto. rewrite E. apply O; auto.
  - unfold chi2_of. rewrite (sk_graph _ _ SK). apply lsum_ext. intros l I. unfold fchi2.
    destruct (sk_factor _ _ SK l) as (E1 & E2 & E3 & _ & E5 & _). rewrite E5. unfold fdim. rewrite E1. f_equal.
    assert (ER : forall i, res_at w' l i = res_at w l i).
    { intros i. unfold res_at. rewrite E3. apply O; auto. unfold states_of. rewrite E2. clear - H.
      induction (f_nodes (fa w l)) as [|n ns IH]; cbn; constructor; auto. destruct (H n) as [E|[_ E]]; auto. }
    apply quad_ext; intros; apply ER.
Qed.
Lemma wrap_ok_skel w w' : skel w w' ->
  (forall l, In l (g_active (w_graph w)) -> nst (n_data (nd w' l)) = nst (n_data (nd w l)) \/ val_set (nst (n_data (nd w' l))) = nst (n_data (nd w' l))) ->
  wrap_ok w -> wrap_ok w'.
Proof.
  intros SK H [O|O]; [left|right]; rewrite (sk_graph _ _ SK); intros l I.
  - destruct (H l I) as [E|E]; auto. rewrite E. auto.
  - intros vs vs' F i. destruct (sk_factor _ _ SK l) as (_ & _ & E3 & _). rewrite E3. apply O; auto.
Qed.
Lemma lm_iter_chi2 lin s s' e : valid_factors (s_w s) -> wrap_ok (s_w s) -> lm_iter lin s = Some (s', e) ->
  chi2_of (s_w s') <= chi2_of (s_w s) /\ wrap_ok (s_w s') /\ (e = Rejected -> chi2_of (s_w s') = chi2_of (s_w s)) /\
  (e = Converged -> chi2_of (s_w s) - chi2_of (s_w s') < s_tol s) /\ (e = Accepted -> s_tol s <= chi2_of (s_w s) - chi2_of (s_w s')).
Proof.
  intros V O. unfold lm_iter. destruct (optimize_gauss_newton lin true s) as [s1|] eqn:E; [|discriminate].
  destruct (gn_frame _ _ _ _ E) as (S1 & N1 & _ & T1). rewrite chi2_false. rewrite (gn_chi2 _ _ _ _ V E). cbn [with_world s_w update_nodes].
  set (w2 := sync_aux (s_w s1)). destruct (sync_aux_spec (s_w s1)) as (S2 & F2 & N2). fold w2 in S2, F2, N2.
  change (s_dx (with_world s1 w2)) with (s_dx s1).
  set (w3 := update_nodes_w w2 (s_dx s1)). destruct (update_nodes_spec w2 (s_dx s1)) as (S3 & F3 & A3 & N3 & _ & U3). fold w3 in S3, F3, A3, N3, U3.
  assert (SK3 : skel (s_w s) w3) by (eapply skel_trans; [|exact S3]; eapply skel_trans; eauto).
  assert (V3 : valid_factors w3) by (intros l; rewrite (sk_graph _ _ SK3), (sk_flen _ _ SK3); apply V).
  rewrite (chi2_true _ V3). pose proof (skel_chi2 w3) as S4. destruct (chi2_world_spec w3) as (N4 & _). set (w4 := fold_left _ _ w3) in *.
  assert (E4 : chi2_of w4 = chi2_of w3) by (apply chi2_of_nodes; auto).
  assert (SK : skel (s_w s) w4) by (eapply skel_trans; eauto).
  assert (St2 : forall l, nst (n_data (nd w2 l)) = nst (n_data (nd (s_w s) l))).
  { intros l. rewrite N2, (nd_same (s_w s1) (s_w s) l N1). destruct (andb _ _); reflexivity. }
  assert (O4 : wrap_ok w4).
  { eapply wrap_ok_skel; [exact SK| |exact O]. intros l I. rewrite (nd_same w4 w3) by auto. destruct (U3 l) as [X|(v & d & X)].
    left. rewrite X. apply St2. right. rewrite X. apply val_update_set. }
  assert (R : chi2_of (sync_state w4) = chi2_of (s_w s) /\ wrap_ok (sync_state w4)).
  { destruct (sync_state_spec w4) as (S5 & F5 & N5). set (w5 := sync_state w4) in *.
    assert (SK5 : skel (s_w s) w5) by (eapply skel_trans; eauto).
    assert (St : forall l, nst (n_data (nd w5 l)) = nst (n_data (nd (s_w s) l)) \/
        (In l (g_active (w_graph (s_w s))) /\ nst (n_data (nd w5 l)) = val_set (nst (n_data (nd (s_w s) l))))).
    { intros l. rewrite N5, (sk_graph _ _ SK), (sk_nlen _ _ SK). destruct (mem l (g_active (w_graph (s_w s)))) eqn:M.
      - apply mem_In in M. destruct (Nat.ltb_spec l (length (w_nodes (s_w s)))) as [L|L]; cbn [andb].
        + right. split; auto. cbn. rewrite (nd_same w4 w3) by auto. rewrite A3, N2, (sk_graph _ _ S1), (sk_nlen _ _ S1).
          pose proof M as M'. apply mem_In in M'. apply Nat.ltb_lt in L. rewrite M', L. cbn. rewrite val_set_set. rewrite (nd_same (s_w s1) (s_w s)); auto.
        + left. unfold nd. rewrite !nth_overflow; auto. rewrite (sk_nlen _ _ SK); auto.
      - cbn. left. rewrite (nd_same w4 w3) by auto. rewrite N3. apply St2. rewrite (sk_graph _ _ S2), (sk_graph _ _ S1). intros X. apply mem_In in X. congruence. }
    split. apply chi2_of_wrap; auto. eapply wrap_ok_skel; eauto. intros l I. destruct (St l) as [X|[_ X]]; auto. right. rewrite X. apply val_set_set. }
  destruct R as [R1 R2]. change (s_tol (with_world (mkS _ _ _ _ _ _ _ _ _ _ _ _) _)) with (s_tol s1). cbn [s_tol with_world].
  destruct (Rltb (chi2_of (s_w s) - chi2_of w3) 0) eqn:D1.
  - intros X; injection X as <- <-. cbn. rewrite R1. split; [lra|]. split; auto. split; auto. split; discriminate.
  - apply Rltb_niff in D1. destruct (Rltb (chi2_of (s_w s) - chi2_of w3) _) eqn:D2; intros X; injection X as <- <-; cbn; rewrite E4; (split; [lra|split; [auto|]]).
    + apply Rltb_iff in D2. cbn in D2. rewrite T1 in D2. repeat split; try discriminate. intros _; auto.
    + apply Rltb_niff in D2. cbn in D2. rewrite T1 in D2. repeat split; try discriminate. intros _; lra.
Qed.
Lemma iters_chi2 lin es s s' : valid_factors (s_w s) -> wrap_ok (s_w s) -> iters lin es s s' ->
  chi2_of (s_w s') <= chi2_of (s_w s) /\ wrap_ok (s_w s').
Proof.
  intros V O I. induction I. { split; auto. lra. }
  destruct (lm_iter_chi2 _ _ _ _ V O H) as (A & B & _). destruct (lm_iter_frame _ _ _ _ H) as (SK & _).
  destruct IHI as [C D]; auto. { intros l. rewrite (sk_graph _ _ SK), (sk_flen _ _ SK). apply V. } split; auto. lra.
Qed.

(** the exit of a pass, and what the factors cache afterwards *)
Lemma lm_iter_decide lin s s' e : valid_factors (s_w s) -> lm_iter lin s = Some (s', e) ->
  exists w3, skel (s_w s) w3 /\ e = lm_decide (Some (chi2_of (s_w s))) (Some (chi2_of w3)) (s_tol s) /\
    (forall l, In l (g_factors (w_graph (s_w s))) -> f_chi2 (fa (s_w s') l) = fchi2 w3 l).
Proof.
  intros V. unfold lm_iter. destruct (optimize_gauss_newton lin true s) as [s1|] eqn:E; [|discriminate].
  destruct (gn_frame _ _ _ _ E) as (S1 & N1 & _ & T1). rewrite chi2_false. rewrite (gn_chi2 _ _ _ _ V E). cbn [with_world s_w update_nodes].
  set (w2 := sync_aux (s_w s1)). destruct (sync_aux_spec (s_w s1)) as (S2 & F2 & N2). fold w2 in S2, F2, N2.
  change (s_dx (with_world s1 w2)) with (s_dx s1).
  set (w3 := update_nodes_w w2 (s_dx s1)). destruct (update_nodes_spec w2 (s_dx s1)) as (S3 & F3 & _). fold w3 in S3, F3.
  assert (SK3 : skel (s_w s) w3) by (eapply skel_trans; [|exact S3]; eapply skel_trans; eauto).
  assert (V3 : valid_factors w3) by (intros l; rewrite (sk_graph _ _ SK3), (sk_flen _ _ SK3); apply V).
  rewrite (chi2_true _ V3). destruct (chi2_world_spec w3) as (_ & _ & _ & D4). set (w4 := fold_left _ _ w3) in *.
  assert (C : forall l, In l (g_factors (w_graph (s_w s))) -> f_chi2 (fa w4 l) = fchi2 w3 l).
  { intros l I. rewrite D4. rewrite <- (sk_graph _ _ SK3) in I. pose proof (V3 l I) as L. apply Nat.ltb_lt in L. apply mem_In in I. rewrite I, L. reflexivity. }
  assert (C5 : forall l, In l (g_factors (w_graph (s_w s))) -> f_chi2 (fa (sync_state w4) l) = fchi2 w3 l).
  { intros l I. destruct (sync_state_spec w4) as (_ & F5 & _). unfold fa. rewrite F5. apply C; auto. }
  change (s_tol (with_world (mkS _ _ _ _ _ _ _ _ _ _ _ _) _)) with (s_tol s1). cbn [s_tol with_world].
  intros X. exists w3. split; auto. unfold lm_decide.
  destruct (Rltb (chi2_of (s_w s) - chi2_of w3) 0) eqn:D1.
  - injection X as <- <-. split; auto.
  - cbn in X. rewrite T1 in X.
    destruct (Rltb (chi2_of (s_w s) - chi2_of w3) (s_tol s)) eqn:D2; injection X as <- <-; split; auto.
Qed.
Lemma lm_iter_stale lin s s' : valid_factors (s_w s) -> wrap_ok (s_w s) -> lm_iter lin s = Some (s', Rejected) ->
  chi2_of (s_w s') < lsum (g_factors (w_graph (s_w s'))) (fun l => f_chi2 (fa (s_w s') l)).
Proof.
  intros V O H. destruct (lm_iter_decide _ _ _ _ V H) as (w3 & SK3 & D & C). destruct (lm_iter_chi2 _ _ _ _ V O H) as (_ & _ & R & _).
  rewrite (R eq_refl). destruct (lm_iter_frame _ _ _ _ H) as (SK & _). rewrite (sk_graph _ _ SK).
  rewrite (lsum_ext _ _ _ C). fold (chi2_of (s_w s)). rewrite <- (sk_graph _ _ SK3). fold (chi2_of w3).
  unfold lm_decide in D. destruct (Rltb (chi2_of (s_w s) - chi2_of w3) 0) eqn:D1; [apply Rltb_iff in D1; lra|].
  destruct (Rltb (chi2_of (s_w s) - chi2_of w3) (s_tol s)) in D; discriminate D.
Qed.
(** the whole pass: a trial state, the comparison, what is kept *)
Lemma lm_iter_step lin s s' e : wf (s_w s) -> lm_iter lin s = Some (s', e) ->
  exists s1 w3, optimize_gauss_newton lin true s = Some s1 /\ skel (s_w s) w3 /\
    (forall l, In l (g_active (w_graph (s_w s))) ->
       nst (n_data (nd w3 l)) = val_update (nst (n_data (nd (s_w s) l))) (increments (s_w s) (fun i => - s_dx s1 i) l)) /\
    (forall l, ~ In l (g_active (w_graph (s_w s))) -> nd w3 l = nd (s_w s) l) /\
    e = lm_decide (Some (chi2_of (s_w s))) (Some (chi2_of w3)) (s_tol s) /\
    (forall l, In l (g_active (w_graph (s_w s))) -> nst (n_data (nd (s_w s') l)) =
       match e with Rejected => val_set (nst (n_data (nd (s_w s) l))) | _ => nst (n_data (nd w3 l)) end).
Proof.
  intros H. assert (V : valid_factors (s_w s)) by (intros l I; apply (wf_factors _ H l I)).
  unfold lm_iter. destruct (optimize_gauss_newton lin true s) as [s1|] eqn:E; [|discriminate].
  destruct (gn_frame _ _ _ _ E) as (S1 & N1 & _ & T1). rewrite chi2_false. rewrite (gn_chi2 _ _ _ _ V E). cbn [with_world s_w update_nodes].
  set (w2 := sync_aux (s_w s1)). destruct (sync_aux_spec (s_w s1)) as (S2 & F2 & N2). fold w2 in S2, F2, N2.
  change (s_dx (with_world s1 w2)) with (s_dx s1).
  set (w3 := update_nodes_w w2 (s_dx s1)). destruct (update_nodes_spec w2 (s_dx s1)) as (S3 & F3 & A3 & N3 & _). fold w3 in S3, F3, A3, N3.
  assert (SK2 : skel (s_w s) w2) by (eapply skel_trans; eauto).
  assert (SK3 : skel (s_w s) w3) by (eapply skel_trans; [|exact S3]; auto).
  assert (V3 : valid_factors w3) by (intros l; rewrite (sk_graph _ _ SK3), (sk_flen _ _ SK3); apply V).
  rewrite (chi2_true _ V3). pose proof (skel_chi2 w3) as S4. destruct (chi2_world_spec w3) as (N4 & _). set (w4 := fold_left _ _ w3) in *.
  assert (SK : skel (s_w s) w4) by (eapply skel_trans; eauto).
  assert (U : forall l, In l (g_active (w_graph (s_w s))) ->
     nst (n_data (nd w3 l)) = val_update (nst (n_data (nd (s_w s) l))) (increments (s_w s) (fun i => - s_dx s1 i) l) /\
     nax (n_data (nd w3 l)) = val_set (nst (n_data (nd (s_w s) l)))).
  { intros l I. pose proof I as I'. apply In_nth_error in I'. destruct I' as [m Hm]. rewrite <- (sk_graph _ _ SK2) in Hm.
    unfold w3. rewrite (gn_updates w2 (s_dx s1) m l (skel_wf _ _ SK2 H) Hm). cbn [nst nax].
    assert (X : nd w2 l = node_set_data (node_bookkeep (n_data (nd (s_w s) l))) (nd (s_w s) l)).
    { rewrite N2, (nd_same (s_w s1) (s_w s) l N1), (sk_graph _ _ S1), (sk_nlen _ _ S1). destruct (wf_active _ H l I) as [L _].
      apply mem_In in I. apply Nat.ltb_lt in L. rewrite I, L. reflexivity. }
    rewrite X. cbn. split; auto. f_equal. unfold increments. rewrite (sk_graph _ _ SK2), (skel_col _ _ SK2).
    unfold is_anchor. destruct (sk_node _ _ SK2 l) as (_ & _ & -> & _). reflexivity. }
  assert (N30 : forall l, ~ In l (g_active (w_graph (s_w s))) -> nd w3 l = nd (s_w s) l).
  { intros l I. rewrite N3 by (rewrite (sk_graph _ _ SK2); auto). rewrite N2, (nd_same (s_w s1) (s_w s) l N1), (sk_graph _ _ S1).
    destruct (mem l _) eqn:M; auto. apply mem_In in M. contradiction. }
  assert (R : forall l, In l (g_active (w_graph (s_w s))) -> nst (n_data (nd (sync_state w4) l)) = val_set (nst (n_data (nd (s_w s) l)))).
  { intros l I. destruct (sync_state_spec w4) as (_ & _ & N5). rewrite N5, (sk_graph _ _ SK), (sk_nlen _ _ SK).
    destruct (wf_active _ H l I) as [L _]. destruct (U l I) as [_ U2]. apply mem_In in I. apply Nat.ltb_lt in L. rewrite I, L. cbn.
    rewrite (nd_same w4 w3) by auto. rewrite U2. apply val_set_set. }
  change (s_tol (with_world (mkS _ _ _ _ _ _ _ _ _ _ _ _) _)) with (s_tol s1). cbn [s_tol with_world].
  intros X. exists s1, w3. split; auto. split; auto. split. { apply U. } split; auto. unfold lm_decide.
  destruct (Rltb (chi2_of (s_w s) - chi2_of w3) 0) eqn:D1.
  - injection X as <- <-. split; auto.
  - cbn in X. rewrite T1 in X.
    destruct (Rltb (chi2_of (s_w s) - chi2_of w3) (s_tol s)) eqn:D2; injection X as <- <-; split; auto; intros l I; cbn; rewrite (nd_same w4 w3); auto.
Qed.
Lemma lambda_pos la d den : 0 < la -> 0 < lambda_update la d den.
Proof.
  intros H. unfold lambda_update. destruct (Req_EM_T den 0). destruct (Rltb 0 d); lra.
  cbv zeta. destruct (Rltb (d / den) (1 / 4)), (Rltb (8 / 10) (d / den)); lra.
Qed.
Lemma lm_iter_lambda lin s s' e : 0 < s_lambda s -> lm_iter lin s = Some (s', e) -> 0 < s_lambda s'.
Proof.
  intros P. unfold lm_iter. destruct (optimize_gauss_newton lin true s) as [s1|] eqn:E; [|discriminate].
  destruct (gn_frame _ _ _ _ E) as (_ & _ & L1 & _). rewrite chi2_false. destruct (chi2 true _) as [w4 x].
  destruct (Rltb _ 0); [|destruct (Rltb _ _)]; intros X; injection X as <- <-; cbn; rewrite ?L1; try lra. apply lambda_pos. auto.
Qed.
Lemma solve_lambda lin m k la la' tol s : option_map s_w (solve lin m k la tol s) = option_map s_w (solve lin m k la' tol s).
Proof.
  unfold solve. destruct m; [|reflexivity]. unfold optimize_gauss_newton, build_problem, build_adjacency.
  cbn [with_tol with_lambda s_w s_r s_L s_b s_dx s_lambda s_tol s_diag]. destruct (index_nodes (s_w s)) as [mm N]. destruct (negb _); [reflexivity|].
  destruct (sp_insert_all _ _ _ _); [|reflexivity]. destruct (sp_insert_all _ _ _ _); reflexivity.
Qed.
