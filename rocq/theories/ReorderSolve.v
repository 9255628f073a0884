(** Solving two sessions with the same nodes and the same cost (C84). *)
Require Import Reals List Arith Lia Lra Bool Permutation.
From Verif Require Import Lin SO3 LinFacts SpecGeom Nodes Robust Graph GraphProofs Sums Solve SpecSolve SolveIndex SolveFrame SolveSums SolveBuild SolveProofs Session SessionProofs.
From Verif Require Import Factors SpecFactors FactorsSession SpecFrame FrameFactors FrameSolve SpecSolvable SpecMapping SpecReorder SolvableSession DenseProofs MappingSession LMMapping Reorder.
Import ListNotations.
Local Open Scope R_scope.
Local Arguments nd : simpl never.
Local Arguments fa : simpl never.

Section Step.
Variables (rob : robust_type) (cs cs' : list pycall) (p q : nat -> nat).
Hypothesis (NR : rob <> RANSAC) (P : Forall call_info cs) (P' : Forall call_info cs').
Let N := length (nodes_of cs).
Hypothesis SC : same_cost rob p N (flat_map facts cs) (flat_map facts cs').
Definition rel (w w' : world) (x x' : nat -> R) : Prop := agree_d p N (state_of w) (inc_of w x) (inc_of w' x').
Definition pd (w w' : world) : Prop := paired rob cs cs' p q w w'.
Lemma pd_agree w w' : pd w w' -> agree p N (state_of w) (state_of w').
Proof using. intros H i Hi. apply (pr_state _ _ _ _ _ _ _ H i Hi). Qed.
Lemma rel_to w w' x : pd w w' -> rel w w' x (carry q w w' x).
Proof using. intros H i k Hi Hk. apply (carry_inc _ _ _ _ _ _ _ H); auto. Qed.
Lemma rel_from w w' x' : pd w w' -> rel w w' (carry p w' w x') x'.
Proof using.
  intros H i k Hi Hk. pose proof (paired_sym _ _ _ _ _ _ _ H) as H'. destruct (pr_p _ _ _ _ _ _ _ H i Hi) as [Hp Eq]. rewrite <- Eq at 2. symmetry. apply (carry_inc _ _ _ _ _ _ _ H').
  - rewrite (pr_len _ _ _ _ _ _ _ H). exact Hp.
  - rewrite (pr_state _ _ _ _ _ _ _ H i Hi). exact Hk.
Qed.
Lemma rel_chi2 w w' : pd w w' -> chi2_of w' = chi2_of w.
Proof using NR SC. intros H. rewrite (facts_chi2 rob cs w (pr_inv _ _ _ _ _ _ _ H) NR), (facts_chi2 rob cs' w' (pr_inv' _ _ _ _ _ _ _ H) NR). apply (SC _ _ (pd_agree _ _ H)). Qed.
Lemma rel_rhs w w' x x' : pd w w' -> rel w w' x x' -> gn_rhs w' x' = gn_rhs w x.
Proof using NR SC P P'. intros H A. rewrite (facts_rhs rob cs w (pr_inv _ _ _ _ _ _ _ H) P NR), (facts_rhs rob cs' w' (pr_inv' _ _ _ _ _ _ _ H) P' NR). apply (proj2 (SC _ _ (pd_agree _ _ H))). exact A. Qed.
Lemma rel_form w w' x x' y y' : pd w w' -> rel w w' x x' -> rel w w' y y' -> gn_form w' x' y' = gn_form w x y.
Proof using NR SC P P'. intros H A B. rewrite (facts_form rob cs w (pr_inv _ _ _ _ _ _ _ H) P NR), (facts_form rob cs' w' (pr_inv' _ _ _ _ _ _ _ H) P' NR). apply (proj2 (SC _ _ (pd_agree _ _ H)) _ _ A). exact B. Qed.
Lemma rel_dot w w' x x' y y' : pd w w' -> rel w w' x x' -> rel w w' y y' -> dot (g_stateDim (w_graph w')) x' y' = dot (g_stateDim (w_graph w)) x y.
Proof using.
  intros H A B. rewrite (act_dot rob cs w (pr_inv _ _ _ _ _ _ _ H)), (act_dot rob cs' w' (pr_inv' _ _ _ _ _ _ _ H)), (lsum_perm _ _ _ (act_perm _ _ _ _ _ _ _ H)), lsum_map.
  apply lsum_ext. intros i I. pose proof (act_lt _ _ _ _ _ _ _ H i I) as Hi. rewrite (pr_state _ _ _ _ _ _ _ H i Hi). apply sumn_ext. intros k Hk. rewrite A, B; auto.
Qed.
Lemma inc_opp w x i k : inc_of w (fun j => - x j) i k = - inc_of w x i k.
Proof using. unfold inc_of. destruct (get_node w i) as [l|]; [|ring]. unfold increments. destruct (is_anchor _); ring. Qed.
Lemma rel_opp w w' x x' : rel w w' x x' -> rel w w' (fun i => - x i) (fun i => - x' i).
Proof using. intros A i k Hi Hk. rewrite !inc_opp, A; auto. Qed.
Lemma rel_below w w' x y x' : pd w w' -> same_below (g_stateDim (w_graph w)) x y -> rel w w' x x' -> rel w w' y x'.
Proof using. intros H S A i k Hi Hk. rewrite A by auto. apply (below_inc rob cs w (pr_inv _ _ _ _ _ _ _ H)); auto. Qed.

(** the equation of a step, damped or not, has one solution *)
Definition one_step (la : R) (w : world) : Prop := forall x, gn_form w x x + la * dot (g_stateDim (w_graph w)) x x = 0 -> forall i, (i < g_stateDim (w_graph w))%nat -> x i = 0.
Lemma step_unique la s d e : wf (s_w s) -> one_step la (s_w s) -> let n := g_stateDim (w_graph (s_w s)) in
  (forall y, gn_form (s_w s) y d + la * dot n y d = gn_form (s_w s) y e + la * dot n y e) -> same_below n d e.
Proof using.
  intros Wf On n H. destruct (build_wf s Wf) as (b & _ & B). set (L := s_L (build_info_adjacency b)).
  assert (F : forall u v, gn_form (s_w s) u v = form n L u v) by (intros u v; unfold n, L, gn_form, form; rewrite (normal_matrix _ _ u v Wf B); reflexivity).
  assert (Z : forall i, (i < n)%nat -> d i + - e i = 0); [|intros i Hi; specialize (Z i Hi); lra].
  apply (On (fun i => d i + - e i)). rewrite F. fold n. specialize (H (fun i => d i + - e i)). rewrite !F in H.
  rewrite form_plus_r, form_opp_r. rewrite (dot_plus_l n d (fun i => - e i)), dot_opp_l, (dot_comm n d), (dot_comm n e). lra.
Qed.
Lemma damped_one la w : inv rob cs w -> 0 < la -> one_step la w.
Proof using NR P.
  intros V La x Z. pose proof (gd_wf _ (iv_good _ _ _ V)) as Wf. destruct (inv_infos rob cs w V P NR) as (Sy & Ps & We). assert (We' : weights_nonneg w) by (intros l I; left; apply We; auto).
  assert (G : 0 <= gn_form w x x).
  { unfold gn_form. apply lsum_nonneg. intros l I. apply Rmult_le_pos; [apply We'; auto|]. rewrite quad_sym by (apply Sy; auto). apply Ps; auto. }
  pose proof (dot_nonneg (g_stateDim (w_graph w)) x) as D. assert (D0 : dot (g_stateDim (w_graph w)) x x = 0) by nra. intros i Hi. pose proof (sumn_sq_zero _ _ D0 i Hi). nra.
Qed.
Lemma steps_rel la s s' d d' : pd (s_w s) (s_w s') -> one_step la (s_w s) ->
  (forall y, gn_form (s_w s) y d + la * dot (g_stateDim (w_graph (s_w s))) y d = gn_rhs (s_w s) y) ->
  (forall y, gn_form (s_w s') y d' + la * dot (g_stateDim (w_graph (s_w s'))) y d' = gn_rhs (s_w s') y) -> rel (s_w s) (s_w s') d d'.
Proof using NR SC P P'.
  intros H On E E'. set (e := carry p (s_w s') (s_w s) d'). pose proof (rel_from (s_w s) (s_w s') d' H) as Re. fold e in Re.
  apply (rel_below _ _ e d d' H); [|exact Re]. apply (step_unique la s e d (gd_wf _ (iv_good _ _ _ (pr_inv _ _ _ _ _ _ _ H))) On). intros y.
  rewrite E. pose proof (rel_to (s_w s) (s_w s') y H) as Ry. rewrite <- (rel_form _ _ _ _ _ _ H Ry Re), <- (rel_dot _ _ _ _ _ _ H Ry Re), E'. apply (rel_rhs _ _ _ _ H Ry).
Qed.
(** *** the new states *)
Lemma pd_step w w' w1 w1' d d' : pd w w' -> skel w w1 -> kinds_kept w w1 -> skel w' w1' -> kinds_kept w' w1' -> rel w w' d d' ->
  (forall l, In l (g_active (w_graph w)) -> nst (n_data (nd w1 l)) = val_update (nst (n_data (nd w l))) (increments w d l)) -> (forall l, ~ In l (g_active (w_graph w)) -> nst (n_data (nd w1 l)) = nst (n_data (nd w l))) ->
  (forall l, In l (g_active (w_graph w')) -> nst (n_data (nd w1' l)) = val_update (nst (n_data (nd w' l))) (increments w' d' l)) -> (forall l, ~ In l (g_active (w_graph w')) -> nst (n_data (nd w1' l)) = nst (n_data (nd w' l))) ->
  pd w1 w1'.
Proof using.
  intros H K KK K' KK' Rd U O U' O'. pose proof (pr_inv _ _ _ _ _ _ _ H) as V. pose proof (pr_inv' _ _ _ _ _ _ _ H) as V'.
  constructor; [eapply inv_skel; eauto|eapply inv_skel; eauto|apply H|apply (pr_p _ _ _ _ _ _ _ H)|apply (pr_q _ _ _ _ _ _ _ H)|apply (pr_mode _ _ _ _ _ _ _ H)|].
  intros i Hi. destruct (nth_error (nodes_of cs) i) as [[m v]|] eqn:E; [|apply nth_error_None in E; lia]. destruct (pr_mode _ _ _ _ _ _ _ H i m v E) as [v' E'].
  destruct (mode_of rob cs w i m v V E) as (l & G & M & Id & Es & _). destruct (mode_of rob cs' w' (p i) m v' V' E') as (l' & G' & M' & Id' & Es' & _).
  pose proof (pr_state _ _ _ _ _ _ _ H i Hi) as St. rewrite Es, Es' in St.
  assert (G1 : state_of w1 i = nst (n_data (nd w1 l))) by (unfold state_of, get_node in *; rewrite (sk_graph _ _ K), G; reflexivity).
  assert (G1' : state_of w1' (p i) = nst (n_data (nd w1' l'))) by (unfold state_of, get_node in *; rewrite (sk_graph _ _ K'), G'; reflexivity).
  rewrite G1, G1'. assert (A : m <> ANCHOR -> nst (n_data (nd w1' l')) = nst (n_data (nd w1 l))).
  { intros NA. destruct (standard_active rob cs w i m v l V E NA G) as [a Ha]. destruct (standard_active rob cs' w' (p i) m v' l' V' E' NA G') as [a' Ha'].
    rewrite (U l (nth_error_In _ _ Ha)), (U' l' (nth_error_In _ _ Ha')), St. apply val_update_ext. intros k Hk. rewrite <- Es in Hk. specialize (Rd i k Hi Hk). unfold inc_of in Rd. rewrite G, G' in Rd. exact Rd. }
  destruct m; [apply A; discriminate| |apply A; discriminate].
  rewrite (O l), (O' l'), St; auto; intros I.
  - destruct (wf_active _ (gd_wf _ (iv_good _ _ _ V')) l' I) as [_ Q]. congruence.
  - destruct (wf_active _ (gd_wf _ (iv_good _ _ _ V)) l I) as [_ Q]. congruence.
Qed.
(** *** Gauss-Newton *)
Lemma gn_pd lin k la tol s s' t t' : exact lin -> pd (s_w s) (s_w s') -> one_step 0 (s_w s) -> solve lin GN k la tol s = Some t -> solve lin GN k la tol s' = Some t' -> pd (s_w t) (s_w t').
Proof using NR SC P P'.
  intros X H On E E'. pose proof (pr_inv _ _ _ _ _ _ _ H) as V. pose proof (pr_inv' _ _ _ _ _ _ _ H) as V'. pose proof (gd_wf _ (iv_good _ _ _ V)) as Wf. pose proof (gd_wf _ (iv_good _ _ _ V')) as Wf'.
  assert (NS : forall b, build_problem false s = Some b -> nonsingular (g_stateDim (w_graph (s_w s))) (s_L b)).
  { intros b Q. apply (gn_regular s b Wf); auto. intros x Z. apply On. rewrite Z. ring. }
  assert (NS' : forall b, build_problem false s' = Some b -> nonsingular (g_stateDim (w_graph (s_w s'))) (s_L b)).
  { intros b Q. apply (gn_regular s' b Wf'); auto. intros x' Z. pose proof (rel_from (s_w s) (s_w s') x' H) as Rx. set (x := carry p (s_w s') (s_w s) x') in *.
    rewrite (rel_form _ _ _ _ _ _ H Rx Rx) in Z. assert (X0 : forall i, (i < g_stateDim (w_graph (s_w s)))%nat -> x i = 0) by (apply On; rewrite Z; ring).
    apply (inc_below rob cs' (s_w s') V' x' (fun _ => 0)). intros j k' Hj Hk. pose proof (pr_len _ _ _ _ _ _ _ H) as Le. destruct (pr_q _ _ _ _ _ _ _ H j ltac:(lia)) as [Hq Ej].
    assert (Hk2 : (k' < nval_dim (state_of (s_w s) (q j)))%nat) by (rewrite <- (pr_state _ _ _ _ _ _ _ H _ Hq), Ej; exact Hk).
    rewrite <- Ej at 1. rewrite (Rx (q j) k' Hq Hk2). rewrite (below_inc rob cs (s_w s) V x (fun _ => 0) (q j) k' X0 Hq Hk2).
    unfold inc_of. destruct (get_node (s_w s) (q j)), (get_node (s_w s') j); unfold increments; repeat destruct (is_anchor _); reflexivity. }
  destruct (gn_step lin k la tol s t Wf X NS E) as (_ & O & d & Ed & U). destruct (gn_step lin k la tol s' t' Wf' X NS' E') as (_ & O' & d' & Ed' & U').
  destruct (solve_frame _ _ _ _ _ _ _ E) as (K & _ & KK). destruct (solve_frame _ _ _ _ _ _ _ E') as (K' & _ & KK').
  assert (Rd : rel (s_w s) (s_w s') d d') by (apply (steps_rel 0); auto; intros y; [rewrite Ed|rewrite Ed']; ring).
  apply (pd_step (s_w s) (s_w s') _ _ (fun i => - d i) (fun i => - d' i)); auto; [apply rel_opp; auto|..]; intros l I; apply In_nth_error in I; destruct I as [m I]; eauto.
Qed.
(** *** Levenberg-Marquardt *)
Lemma lm_rejected lin s s' : lm_iter lin s = Some (s', Rejected) -> s_lambda s' = s_lambda s * 2.
Proof using.
  unfold lm_iter. destruct (optimize_gauss_newton lin true s) as [s1|] eqn:E; [|discriminate].
  destruct (gn_frame _ _ _ _ E) as (_ & _ & L1 & _). rewrite chi2_false. destruct (chi2 true _) as [w4 x].
  destruct (Rltb _ 0); [|destruct (Rltb _ _)]; intros X; try discriminate. injection X as <-. cbn. rewrite L1. reflexivity.
Qed.
Definition like (s s' : solver) : Prop := pd (s_w s) (s_w s') /\ 0 < s_lambda s /\ s_lambda s' = s_lambda s /\ s_tol s' = s_tol s.
Lemma lm_iter_like lin s s' t t' e e' : exact lin -> like s s' -> lm_iter lin s = Some (t, e) -> lm_iter lin s' = Some (t', e') -> e' = e /\ like t t'.
Proof using NR SC P P'.
  intros X (H & La & El & Et) It It'. pose proof (pr_inv _ _ _ _ _ _ _ H) as V. pose proof (pr_inv' _ _ _ _ _ _ _ H) as V'. pose proof (gd_wf _ (iv_good _ _ _ V)) as Wf. pose proof (gd_wf _ (iv_good _ _ _ V')) as Wf'.
  destruct (inv_infos rob cs _ V P NR) as (Sy & Ps & We). assert (Wn : weights_nonneg (s_w s)) by (intros l I; left; apply We; auto).
  destruct (inv_infos rob cs' _ V' P' NR) as (Sy' & Ps' & We'). assert (Wn' : weights_nonneg (s_w s')) by (intros l I; left; apply We'; auto).
  destruct (lm_iter_parts lin s t e Wf It) as (s1 & w3 & E1 & K3 & KK3 & Up & Out & Ed & Ke & Lc & Lm). destruct (lm_iter_parts lin s' t' e' Wf' It') as (s1' & w3' & E1' & K3' & KK3' & Up' & Out' & Ed' & Ke' & Lc' & Lm').
  destruct (lm_equations lin s s1 Wf X Sy Ps Wn La E1) as (Eq & Eb & EL). destruct (lm_equations lin s' s1' Wf' X Sy' Ps' Wn' ltac:(lra) E1') as (Eq' & Eb' & EL'). rewrite El in Eq', EL'.
  pose proof (steps_rel (s_lambda s) s s' _ _ H (damped_one _ _ V La) Eq Eq') as Rd.
  assert (H3 : pd w3 w3').
  { apply (pd_step (s_w s) (s_w s') _ _ _ _ H K3 KK3 K3' KK3' (rel_opp _ _ _ _ Rd)); auto; intros l Hl; [rewrite (Out l Hl)|rewrite (Out' l Hl)]; reflexivity. }
  assert (Ee : e' = e) by (rewrite Ed, Ed', (rel_chi2 _ _ H), (rel_chi2 _ _ H3), Et; reflexivity). split; auto. clear Ed Ed'. subst e'.
  destruct (lm_iter_frame _ _ _ _ It) as (K & O & Tt). destruct (lm_iter_frame _ _ _ _ It') as (K' & O' & Tt'). pose proof (kk_lm_iter _ _ _ _ It) as KK. pose proof (kk_lm_iter _ _ _ _ It') as KK'.
  split; [|split; [apply (lm_iter_lambda _ _ _ _ La It)|split; [|congruence]]].
  - constructor; [eapply inv_skel; eauto|eapply inv_skel; eauto|apply H|apply (pr_p _ _ _ _ _ _ _ H)|apply (pr_q _ _ _ _ _ _ _ H)|apply (pr_mode _ _ _ _ _ _ _ H)|].
    intros i Hi. assert (St : forall u v l, skel u v -> get_node u i = Some l -> state_of v i = nst (n_data (nd v l))) by (intros u v l Ku G; unfold state_of, get_node in *; rewrite (sk_graph _ _ Ku), G; reflexivity).
    destruct (nth_error (nodes_of cs) i) as [[m v]|] eqn:E; [|apply nth_error_None in E; lia]. destruct (pr_mode _ _ _ _ _ _ _ H i m v E) as [v' E'].
    destruct (mode_of rob cs _ i m v V E) as (l & G & M & Id & Es & _). destruct (mode_of rob cs' _ (p i) m v' V' E') as (l' & G' & M' & Id' & Es' & _).
    assert (St' : forall v, skel (s_w s') v -> state_of v (p i) = nst (n_data (nd v l'))) by (intros u Ku; unfold state_of, get_node in *; rewrite (sk_graph _ _ Ku), G'; reflexivity).
    rewrite (St _ _ l K G), (St' _ K'). pose proof (pr_state _ _ _ _ _ _ _ H i Hi) as S0. rewrite Es, Es' in S0. pose proof (pr_state _ _ _ _ _ _ _ H3 i Hi) as S3. rewrite (St _ _ l K3 G), (St' _ K3') in S3.
    destruct e; [|rewrite (Ke ltac:(discriminate)), (Ke' ltac:(discriminate)); exact S3|rewrite (Ke ltac:(discriminate)), (Ke' ltac:(discriminate)); exact S3].
    destruct (lm_iter_step lin s t Rejected Wf It) as (_ & _ & _ & _ & _ & _ & _ & Rj). destruct (lm_iter_step lin s' t' Rejected Wf' It') as (_ & _ & _ & _ & _ & _ & _ & Rj').
    assert (A : m <> ANCHOR -> nst (n_data (nd (s_w t') l')) = nst (n_data (nd (s_w t) l))).
    { intros NA. destruct (standard_active rob cs _ i m v l V E NA G) as [a Ha]. destruct (standard_active rob cs' _ (p i) m v' l' V' E' NA G') as [a' Ha'].
      rewrite (Rj l (nth_error_In _ _ Ha)), (Rj' l' (nth_error_In _ _ Ha')), S0. reflexivity. }
    destruct m; [apply A; discriminate| |apply A; discriminate].
    rewrite (O l), (O' l'), S0; auto; intros I.
    + destruct (wf_active _ Wf' l' I) as [_ Q]. congruence.
    + destruct (wf_active _ Wf l I) as [_ Q]. congruence.
  - destruct e.
    + rewrite (lm_rejected _ _ _ It), (lm_rejected _ _ _ It'), El. reflexivity.
    + rewrite (Lc eq_refl), (Lc' eq_refl). exact El.
    + specialize (Lm eq_refl). specialize (Lm' eq_refl). cbv zeta in Lm, Lm'. rewrite Lm, Lm', El, Eb, Eb', EL, EL', (rel_chi2 _ _ H), (rel_chi2 _ _ H3), (rel_rhs _ _ _ _ H Rd), (rel_form _ _ _ _ _ _ H Rd Rd), (rel_dot _ _ _ _ _ _ H Rd Rd). reflexivity.
Qed.
Lemma lm_loop_like lin maxIters : exact lin -> forall fuel iter s s' t t' k k', like s s' -> lm_loop lin fuel iter maxIters s = Some (t, k) -> lm_loop lin fuel iter maxIters s' = Some (t', k') -> k' = k /\ like t t'.
Proof using NR SC P P'.
  intros X. induction fuel as [|fuel IH]; intros iter s s' t t' k k' H E E'; [discriminate|]. cbn in E, E'.
  destruct (lm_iter lin s) as [[s1 e]|] eqn:I; [|discriminate]. destruct (lm_iter lin s') as [[s1' e']|] eqn:I'; [|discriminate].
  destruct (lm_iter_like lin s s' s1 s1' e e' X H I I') as [-> H1].
  assert (Go : (if (S iter <? maxIters)%nat then lm_loop lin fuel (S iter) maxIters s1 else Some (s1, 0%nat)) = Some (t, k) ->
    (if (S iter <? maxIters)%nat then lm_loop lin fuel (S iter) maxIters s1' else Some (s1', 0%nat)) = Some (t', k') -> k' = k /\ like t t').
  { clear E E'. destruct (S iter <? maxIters)%nat; intros E E'; [eapply IH; eauto|]. injection E as <- <-. injection E' as <- <-. auto. }
  destruct e; auto. injection E as <- <-. injection E' as <- <-. auto.
Qed.
Lemma lm_pd lin k la tol s s' t t' : exact lin -> pd (s_w s) (s_w s') -> solve lin LM k la tol s = Some t -> solve lin LM k la tol s' = Some t' -> pd (s_w t) (s_w t').
Proof using NR SC P P'.
  intros X H E E'. unfold solve in E, E'. destruct (optimize_levenberg_marquardt lin k (with_tol (with_lambda s la) tol)) as [[t1 j]|] eqn:Q; [|discriminate]. destruct (optimize_levenberg_marquardt lin k (with_tol (with_lambda s' la) tol)) as [[t1' j']|] eqn:Q'; [|discriminate].
  cbn in E, E'. injection E as <-. injection E' as <-. unfold optimize_levenberg_marquardt in Q, Q'.
  eapply (lm_loop_like lin k X _ _ _ _ t1 t1' j j'); [|exact Q|exact Q']. split; [exact H|]. cbn. split; [lra|auto].
Qed.
End Step.

(** ** sessions with the same measurements have the same cost *)
Definition lift (F : fact -> R) (c : pycall) : R := match call_factor c with Some f => F f | None => 0 end.
Lemma lift_facts F cs : lsum (flat_map facts cs) F = lsum cs (lift F).
Proof.
  rewrite lsum_flat_map. apply lsum_ext. intros c _. unfold facts, lift. destruct (call_factor c) as [f|]; [rewrite lsum_cons, lsum_nil; ring|apply lsum_nil].
Qed.
(** [F] looks at the dimension, the residual and the Jacobian of a class only *)
Definition blunt (F : fact -> R) : Prop := forall cl cl' ids W, fc_dim cl' = fc_dim cl -> fc_res cl' = fc_res cl -> fc_jac cl' = fc_jac cl -> F (cl', ids, W) = F (cl, ids, W).
Lemma blunt_c st : blunt (f_c st).
Proof. intros cl cl' ids W A B C. unfold f_c. rewrite A, B. reflexivity. Qed.
Lemma blunt_g rob st d : blunt (f_g rob st d).
Proof. intros cl cl' ids W A B C. unfold f_g, f_w, f_c, f_jd. rewrite A, B, C. reflexivity. Qed.
Lemma blunt_f rob st d e : blunt (f_f rob st d e).
Proof. intros cl cl' ids W A B C. unfold f_f, f_w, f_c, f_jd. rewrite A, B, C. reflexivity. Qed.
Lemma lift_measured F cs : blunt F -> lsum (flat_map measured cs) (lift F) = lsum cs (lift F).
Proof.
  intros B. rewrite lsum_flat_map. apply lsum_ext. intros c _. unfold lift, call_factor.
  destruct c; cbn [measured pycall_op]; rewrite ?lsum_cons, ?lsum_nil; cbn [pycall_op]; try (destruct (_ <? _)%nat); rewrite ?Rplus_0_r; try reflexivity; apply B; reflexivity.
Qed.
Lemma measured_ids c c0 cl ids W : In c0 (measured c) -> call_factor c0 = Some (cl, ids, W) -> exists cl', call_factor c = Some (cl', ids, W).
Proof.
  unfold call_factor. destruct c; cbn [measured]; intros I; try contradiction; destruct I as [<-|[]]; cbn [pycall_op]; try (destruct (_ <? _)%nat); intros E; injection E as <- <- <-; eauto.
Qed.
Lemma ids_below rob cs w c cl ids W : inv rob cs w -> In c cs -> call_factor c = Some (cl, ids, W) -> forall i, In i ids -> (i < length (nodes_of cs))%nat.
Proof.
  intros V I E i Ii. assert (F : In (cl, ids, W) (flat_map facts cs)) by (apply in_flat_map; exists c; split; auto; unfold facts; rewrite E; left; auto).
  apply In_nth_error in F. destruct F as [k F]. destruct (tk_cls _ _ _ (iv_tracks _ _ _ V) k cl ids W F) as (_ & _ & _ & G). rewrite <- session_len, <- (tk_len _ _ _ (iv_tracks _ _ _ V)). revert Ii G. generalize (f_nodes (fa w k)). clear. induction ids as [|j ids IH]; intros ls Ii G; [contradiction|]. cbn in G.
  destruct (get_node w j) as [l|] eqn:Gj; [|discriminate]. destruct (get_nodes w ids) as [r|]; [|discriminate]. destruct Ii as [->|Ii]; [|eapply IH; eauto]. apply nth_error_Some. unfold get_node in Gj. congruence.
Qed.
(** the costs of two lists of measurements *)
Definition equal_costs (rob : robust_type) (a b : list pycall) : Prop := forall st, lsum a (lift (f_c st)) = lsum b (lift (f_c st)) /\
  forall d, lsum a (lift (f_g rob st d)) = lsum b (lift (f_g rob st d)) /\ forall e, lsum a (lift (f_f rob st d e)) = lsum b (lift (f_f rob st d e)).
Lemma renamed_cost rob p cs cs' w : inv rob cs w -> Forall (order_kept p) cs -> equal_costs rob (map (rename p) (flat_map measured cs)) (flat_map measured cs') ->
  same_cost rob p (length (nodes_of cs)) (flat_map facts cs) (flat_map facts cs').
Proof.
  intros V O H st st' A. destruct (H st') as (Hc & Hgf). rewrite !lift_facts.
  assert (X : forall F F', blunt F -> blunt F' -> (forall f f', alike p (length (nodes_of cs)) st st' f f' -> F' f' = F f) -> lsum (map (rename p) (flat_map measured cs)) (lift F') = lsum cs (lift F)).
  { intros F F' B B' AL. rewrite lsum_map, <- (lift_measured F cs B). apply lsum_ext. intros c0 I0. apply in_flat_map in I0. destruct I0 as (c & Ic & I0). unfold lift.
    assert (O0 : order_kept p c0). { rewrite Forall_forall in O. specialize (O c Ic). destruct c; cbn [measured] in I0; try contradiction; destruct I0 as [<-|[]]; exact O. }
    destruct (call_factor c0) as [[[cl ids] W]|] eqn:E0.
    - destruct (measured_ids c c0 cl ids W I0 E0) as [cl' Ec]. destruct (alike_call p (length (nodes_of cs)) st st' A c0 cl ids W O0 E0 (ids_below rob cs w c cl' ids W V Ic Ec)) as (f' & E' & Al). rewrite E'. apply AL. exact Al.
    - unfold call_factor in *. destruct c0; cbn [rename pycall_op] in *; try reflexivity; try discriminate; destruct (_ <? _)%nat; discriminate. }
  split.
  - rewrite <- (X _ (f_c st') (blunt_c st) (blunt_c st')), Hc; [symmetry; apply lift_measured, blunt_c|]. intros f f' Al. apply (alike_costs _ _ _ _ rob f f' Al).
  - intros d d' Ad. destruct (Hgf d') as [Hg Hf]. split.
    + rewrite !lift_facts, <- (X _ (f_g rob st' d') (blunt_g rob st d) (blunt_g rob st' d')), Hg; [symmetry; apply lift_measured, blunt_g|]. intros f f' Al. apply (alike_costs _ _ _ _ rob f f' Al). exact Ad.
    + intros e e' Ae. rewrite !lift_facts, <- (X _ (f_f rob st' d' e') (blunt_f rob st d e) (blunt_f rob st' d' e')), Hf; [symmetry; apply lift_measured, blunt_f|]. intros f f' Al. apply (alike_costs _ _ _ _ rob f f' Al); auto.
Qed.
Lemma perm_costs rob a b : Permutation a b -> equal_costs rob a b.
Proof. intros H st. split; [apply lsum_perm; auto|]. intros d. split; [apply lsum_perm; auto|]. intros e. apply lsum_perm; auto. Qed.
Lemma quad_info d W W1 W2 x y : (forall i j, W i j = W1 i j + W2 i j) -> quad d W x y = quad d W1 x y + quad d W2 x y.
Proof. intros H. unfold quad. rewrite <- sumn_plus. apply sumn_ext. intros i _. rewrite <- sumn_plus. apply sumn_ext. intros j _. rewrite H. ring. Qed.
Lemma shared c W1 W2 F : (forall i j, info_of c i j = W1 i j + W2 i j) -> (forall cl ids W, (forall i j, W i j = W1 i j + W2 i j) -> F (cl, ids, W) = F (cl, ids, W1) + F (cl, ids, W2)) ->
  lift F c = lift F (with_info W1 c) + lift F (with_info W2 c).
Proof.
  intros H L. unfold lift, call_factor. destruct c; cbn [info_of with_info pycall_op] in *; try (destruct (_ <? _)%nat); try (apply L; exact H); ring.
Qed.
Lemma regrouped_costs a b : regrouped a b -> equal_costs QUADRATIC a b.
Proof.
  induction 1 as [a b H|c W1 W2 r H|a b _ IH|a b c _ IH _ IH2].
  - apply perm_costs, H.
  - intros st. split; [|intros d; split; [|intros e]]; rewrite !lsum_cons, <- Rplus_assoc; f_equal; apply shared; auto; intros cl ids W Q.
    + unfold f_c. rewrite (quad_info _ W W1 W2) by auto. ring.
    + unfold f_g, f_w. cbn [robust_eval]. rewrite (quad_info _ W W1 W2) by auto. ring.
    + unfold f_f, f_w. cbn [robust_eval]. rewrite (quad_info _ W W1 W2) by auto. ring.
  - intros st. destruct (IH st) as [A B]. split; auto. intros d. destruct (B d) as [C D]. split; auto.
  - intros st. destruct (IH st) as [A B]. destruct (IH2 st) as [A2 B2]. split; [congruence|]. intros d. destruct (B d) as [C D]. destruct (B2 d) as [C2 D2]. split; [congruence|]. intros e. rewrite D. apply D2.
Qed.
(** ** a renumbering has an inverse *)
Lemma inverse (p : nat -> nat) n : (forall i, (i < n)%nat -> (p i < n)%nat) -> (forall i j, (i < n)%nat -> (j < n)%nat -> p i = p j -> i = j) ->
  exists q, (forall i, (i < n)%nat -> (p i < n)%nat /\ q (p i) = i) /\ forall j, (j < n)%nat -> (q j < n)%nat /\ p (q j) = j.
Proof.
  intros B Inj. set (q := fun j => match find (fun i => (p i =? j)%nat) (seq 0 n) with Some i => i | None => O end).
  assert (ND : NoDup (map p (seq 0 n))).
  { assert (G : forall l, NoDup l -> (forall i, In i l -> (i < n)%nat) -> NoDup (map p l)).
    { induction 1 as [|i l Ni Nl IH]; intros Lt; cbn; constructor.
      - intros I. apply in_map_iff in I. destruct I as (j & E & Ij). apply Ni. assert (j = i) as <- by (apply Inj; auto; apply Lt; cbn; auto). exact Ij.
      - apply IH. intros j Ij. apply Lt. right. exact Ij. }
    apply G; [apply seq_NoDup|]. intros i I. apply in_seq in I. lia. }
  assert (Inc : incl (seq 0 n) (map p (seq 0 n))).
  { apply NoDup_length_incl; auto; [rewrite map_length; lia|]. intros j I. apply in_map_iff in I. destruct I as (i & <- & I). apply in_seq in I. apply in_seq. specialize (B i). lia. }
  assert (Q : forall j, (j < n)%nat -> (q j < n)%nat /\ p (q j) = j).
  { intros j Hj. unfold q. destruct (find _ _) as [i|] eqn:F.
    - apply find_some in F. destruct F as [I E]. apply in_seq in I. apply Nat.eqb_eq in E. split; [lia|auto].
    - exfalso. assert (I : In j (map p (seq 0 n))) by (apply Inc, in_seq; lia). apply in_map_iff in I. destruct I as (i & E & I). pose proof (find_none _ _ F i I) as Z. cbn in Z. rewrite E, Nat.eqb_refl in Z. discriminate. }
  exists q. split; auto. intros i Hi. split; auto. destruct (Q (p i) (B i Hi)) as [Hq E]. apply Inj; auto.
Qed.
Lemma renumbered_pd rob p cs cs' w w' : renumbered p cs cs' -> inv rob cs w -> inv rob cs' w' -> (forall i, (i < length (nodes_of cs))%nat -> state_of w' (p i) = state_of w i) -> exists q, pd rob cs cs' p q w w'.
Proof.
  intros [Le Mo Inj] V V' St. assert (B : forall i, (i < length (nodes_of cs))%nat -> (p i < length (nodes_of cs))%nat).
  { intros i Hi. destruct (nth_error (nodes_of cs) i) as [[m v]|] eqn:E; [|apply nth_error_None in E; lia]. destruct (Mo i m v E) as [v' E']. rewrite <- Le. apply nth_error_Some. congruence. }
  destruct (inverse p _ B Inj) as (q & Hp & Hq). exists q. constructor; auto.
Qed.
Lemma held_one rob cs w : typed [] cs -> inv rob cs w -> firm w -> Forall solid_call cs -> Forall call_info cs -> rob <> RANSAC -> (forall i, (i < length (nodes_of cs))%nat -> held cs i) -> one_step 0 w.
Proof.
  intros T V Fi So P NR Hd x Z. rewrite Rmult_0_l, Rplus_0_r in Z. apply (inc_below rob cs w V x (fun _ => 0)). intros i k Hi Hk. destruct (nth_error (nodes_of cs) i) as [[m v]|] eqn:E; [|apply nth_error_None in E; lia].
  destruct (mode_of rob cs w i m v V E) as (l & G & _). unfold inc_of. rewrite G. rewrite (held_zero rob cs w x T V Fi So P NR Hd Z i l k G Hk). unfold increments. destruct (is_anchor _); reflexivity.
Qed.
Lemma solves_alike lin rob p cs cs' m k la tol s s' : exact lin -> rob <> RANSAC -> typed [] cs -> typed [] cs' -> Forall call_info cs -> Forall call_info cs' -> renumbered p cs cs' -> Forall (order_kept p) cs ->
  equal_costs rob (map (rename p) (flat_map measured cs)) (flat_map measured cs') -> (m = GN -> Forall solid_call cs /\ forall i, (i < length (nodes_of cs))%nat -> held cs i) ->
  pycalls lin rob (solver_new world_new) cs = Some s -> pycalls lin rob (solver_new world_new) cs' = Some s' ->
  (forall i, (i < length (nodes_of cs))%nat -> state_of (s_w s') (p i) = state_of (s_w s) i) ->
  chi2_of (s_w s') = chi2_of (s_w s) /\ exists t t', solve lin m k la tol s = Some t /\ solve lin m k la tol s' = Some t' /\
  (forall i, (i < length (nodes_of cs))%nat -> state_of (s_w t') (p i) = state_of (s_w t) i) /\ chi2_of (s_w t') = chi2_of (s_w t).
Proof.
  intros X NR T T' P P' Rn O EC Hm E E' St. destruct (session_inv lin rob cs T) as (s0 & E0 & V & Fi). rewrite E in E0. injection E0 as <-. destruct (session_inv lin rob cs' T') as (s0 & E0 & V' & _). rewrite E' in E0. injection E0 as <-.
  destruct (renumbered_pd rob p cs cs' _ _ Rn V V' St) as [q H]. pose proof (renamed_cost rob p cs cs' _ V O EC) as SC. split; [apply (rel_chi2 rob cs cs' p q NR SC _ _ H)|].
  destruct (solve_total lin m k la tol s (gd_wf _ (iv_good _ _ _ V))) as [t Et]. destruct (solve_total lin m k la tol s' (gd_wf _ (iv_good _ _ _ V'))) as [t' Et']. exists t, t'. split; auto. split; auto.
  assert (Ht : pd rob cs cs' p q (s_w t) (s_w t')).
  { destruct m; [|eapply lm_pd; eauto]. destruct (Hm eq_refl) as [So Hd]. eapply gn_pd; eauto. apply (held_one rob cs); auto. }
  split; [intros i Hi; apply (pr_state _ _ _ _ _ _ _ Ht i Hi)|apply (rel_chi2 rob cs cs' p q NR SC _ _ Ht)].
Qed.
