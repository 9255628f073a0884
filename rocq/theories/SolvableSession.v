(** Sessions whose graphs are held, or float (C80). *)
Require Import Reals List Arith Lia Lra Bool.
From Verif Require Import Lin SO3 SE3 Nodes NodesProofs Robust RobustProofs Graph GraphProofs Sums Solve SpecSolve SolveIndex SolveFrame SolveSums SolveBuild SolveProofs Session SessionProofs.
From Verif Require Import Factors SpecFactors FactorsPlanar FactorsSession SpecFrame FrameFactors FrameSolve FrameSession SpecSolvable SolvableFactors.
Import ListNotations.
Local Open Scope R_scope.
Local Arguments nd : simpl never.
Local Arguments fa : simpl never.

(** ** modes, Jacobians and robust functions along a session *)
Record holds (rob : robust_type) (ns : list (node_mode * nval)) (fs : list (fclass * list nat * (nat -> nat -> R))) (w : world) : Prop := {
  ho_mode : forall i l, nth_error (g_nodes (w_graph w)) i = Some l -> option_map fst (nth_error ns i) = Some (n_mode (nd w l));
  ho_jac : forall k cl ids W, nth_error fs k = Some (cl, ids, W) -> f_jac (fa w k) = fc_jac cl;
  ho_rob : forall k, (k < length fs)%nat -> f_rob (fa w k) = rob;
  ho_nlen : length (g_nodes (w_graph w)) = length ns;
  ho_flen : length (w_factors w) = length fs }.
Lemma holds_new rob : holds rob [] [] world_new.
Proof. constructor; auto; try (intros [|k]; discriminate). cbn. intros k H. lia. Qed.
Lemma holds_skel rob ns fs w w' : skel w w' -> holds rob ns fs w -> holds rob ns fs w'.
Proof.
  intros K [H1 H2 H3 H4 H5]. constructor.
  - intros i l E. rewrite (sk_graph _ _ K) in E. destruct (sk_node _ _ K l) as (_ & _ & -> & _). auto.
  - intros k cl ids W E. destruct (sk_factor _ _ K k) as (_ & _ & _ & -> & _). eauto.
  - intros k L. destruct (sk_factor _ _ K k) as (_ & _ & _ & _ & _ & -> & _). auto.
  - rewrite (sk_graph _ _ K). auto.
  - rewrite (sk_flen _ _ K). auto.
Qed.
Lemma node_nd w m v u : py_node w m v = Some u -> forall l, nd u l = if Nat.eqb l (length (w_nodes w)) then node_set_id (length (g_nodes (w_graph w))) (node_ctor m v) else nd w l.
Proof.
  intros E l. rewrite py_node_eq in E. injection E as <-. set (k := length (g_nodes (w_graph w))). unfold nd at 1; cbn [w_nodes]. rewrite nth_upd, app_length. cbn [length].
  pose proof (nd_alloc w (node_ctor m v) l [] (w_graph w)) as Q. unfold nd at 1 in Q; cbn [w_nodes] in Q. rewrite Q. clear Q.
  destruct (Nat.eqb_spec l (length (w_nodes w))) as [El|]; [|reflexivity]. cbn [andb]. rewrite El. destruct (Nat.ltb_spec (length (w_nodes w)) (length (w_nodes w) + 1)); [reflexivity|lia].
Qed.
Lemma holds_node rob ns fs w m v u : good w -> holds rob ns fs w -> py_node w m v = Some u -> holds rob (ns ++ [(m, v)]) fs u.
Proof.
  intros G [H1 H2 H3 H4 H5] E. pose proof (node_nd _ _ _ _ E) as ND. rewrite py_node_eq in E. injection E as Eu.
  assert (Gn : g_nodes (w_graph u) = g_nodes (w_graph w) ++ [length (w_nodes w)]) by (subst u; reflexivity). assert (Fu : w_factors u = w_factors w) by (subst u; reflexivity). clear Eu.
  assert (FA : forall k, fa u k = fa w k) by (intros k; unfold fa; rewrite Fu; reflexivity).
  constructor.
  - intros i l I. rewrite Gn in I. rewrite ND. destruct (Nat.lt_ge_cases i (length (g_nodes (w_graph w)))) as [L|L].
    + rewrite nth_error_app1 in I by auto. rewrite nth_error_app1 by lia. destruct (gd_ids _ G i l I) as [Ll _]. destruct (Nat.eqb_spec l (length (w_nodes w))); [lia|]. auto.
    + rewrite nth_error_app2 in I by auto. rewrite nth_error_app2 by lia. rewrite <- H4. destruct (i - length (g_nodes (w_graph w)))%nat as [|[|q]]; try discriminate. cbn in I. injection I as <-. rewrite Nat.eqb_refl. reflexivity.
  - intros k cl ids W I. rewrite FA. eauto.
  - intros k L. rewrite FA. auto.
  - rewrite Gn, !app_length, H4. reflexivity.
  - rewrite Fu. auto.
Qed.
Lemma add_nd w dim alldim ns res jac info rob u : grun w [ONewFactor dim alldim ns res jac info rob; OAddFactor (length (w_factors w))] = Some u ->
  (forall l, n_data (nd u l) = n_data (nd w l) /\ n_mode (nd u l) = n_mode (nd w l)) /\ g_nodes (w_graph u) = g_nodes (w_graph w) /\
  length (w_factors u) = S (length (w_factors w)) /\ length (w_nodes u) = length (w_nodes w) /\
  forall l, fa u l = if Nat.eqb l (length (w_factors w)) then factor_set_id (length (g_factors (w_graph w))) (factor_ctor dim alldim ns res jac info rob) else fa w l.
Proof.
  intros E. apply add_new_eq in E. set (lf := length (w_factors w)) in *. set (kf := length (g_factors (w_graph w))) in *.
  assert (ND : forall l, nd u l = if Nat.ltb l (length (w_nodes w)) then add_k lf (count_occ Nat.eq_dec ns l) (nd w l) else nd w l).
  { intros l. rewrite <- (nd_link ns lf w l []). subst u. reflexivity. }
  split. { intros l. rewrite ND. destruct (Nat.ltb _ _); auto. }
  split; [subst u; reflexivity|]. split. { subst u. cbn. rewrite upd_length, app_length. cbn. fold lf. lia. } split. { subst u. cbn. apply link_all_length. }
  intros l. subst u. unfold fa at 1; cbn [w_factors]. rewrite nth_upd, app_length. cbn [length]. destruct (Nat.eqb_spec l lf) as [->|N]; cbn [andb].
  - fold lf. destruct (Nat.ltb_spec lf (lf + 1)); [|lia]. rewrite app_nth2 by (fold lf; lia). fold lf. rewrite Nat.sub_diag. reflexivity.
  - unfold fa. destruct (Nat.lt_ge_cases l lf). rewrite app_nth1; auto. rewrite !nth_overflow; auto. rewrite app_length. cbn. fold lf. lia.
Qed.
Lemma holds_add rob ns fs w cl ids ls W u : holds rob ns fs w -> grun w [ONewFactor (fc_dim cl) (fc_alldim cl) ls (fc_res cl) (fc_jac cl) W rob; OAddFactor (length (w_factors w))] = Some u ->
  holds rob ns (fs ++ [(cl, ids, W)]) u.
Proof.
  intros [H1 H2 H3 H4 H5] E. destruct (add_nd _ _ _ _ _ _ _ _ _ E) as (ND & Gn & Fl & _ & FA). constructor.
  - intros i l I. rewrite Gn in I. destruct (ND l) as [_ ->]. auto.
  - intros k c i X I. rewrite FA. rewrite nth_error_snoc in I. rewrite <- H5 in I. destruct (Nat.ltb_spec k (length (w_factors w))) as [L|L].
    + destruct (Nat.eqb_spec k (length (w_factors w))); [lia|]. eauto.
    + destruct (Nat.eqb_spec k (length (w_factors w))); [|discriminate]. injection I as <- <- <-. reflexivity.
  - intros k L. rewrite app_length in L. cbn in L. rewrite FA. destruct (Nat.eqb_spec k (length (w_factors w))); [reflexivity|]. apply H3. lia.
  - rewrite Gn. auto.
  - rewrite Fl, app_length, H5. cbn. lia.
Qed.
(** ** 3D poses stay invertible *)
Definition firmv (v : nval) : Prop := match v with P3 T => solid T | _ => True end.
Definition firm (w : world) : Prop := forall l, firmv (nst (n_data (nd w l))) /\ firmv (nax (n_data (nd w l))).
Lemma firm_update v d : firmv (val_update v d).
Proof. destruct v; cbn; auto. apply solid_exp. Qed.
Lemma firm_set v : firmv v -> firmv (val_set v).
Proof. destruct v; auto. Qed.
Lemma firm_upd w dx : firm w -> firm (update_nodes_w w dx).
Proof.
  intros F l. destruct (update_nodes_spec w dx) as (_ & _ & A & _ & _ & N). rewrite A. destruct (N l) as [->|(v & d & ->)]; [apply F|]. split; [apply firm_update|apply F].
Qed.
Lemma firm_aux w : firm w -> firm (sync_aux w).
Proof. intros F l. destruct (sync_aux_spec w) as (_ & _ & N). rewrite N. destruct (andb _ _); [|apply F]. cbn. destruct (F l). split; auto. apply firm_set; auto. Qed.
Lemma firm_state w : firm w -> firm (sync_state w).
Proof. intros F l. destruct (sync_state_spec w) as (_ & _ & N). rewrite N. destruct (andb _ _); [|apply F]. cbn. destruct (F l). split; auto. apply firm_set; auto. Qed.
Lemma firm_same w w' : w_nodes w' = w_nodes w -> firm w -> firm w'.
Proof. intros E F l. rewrite (nd_same w' w) by auto. apply F. Qed.
Lemma firm_lm_iter lin s s' e : lm_iter lin s = Some (s', e) -> firm (s_w s) -> firm (s_w s').
Proof.
  unfold lm_iter. destruct (optimize_gauss_newton lin true s) as [s1|] eqn:E; [|discriminate]. intros X F.
  destruct (gn_frame _ _ _ _ E) as (_ & N1 & _). rewrite chi2_false in X. cbn [with_world s_w update_nodes] in X.
  change (s_dx (with_world s1 (sync_aux (s_w s1)))) with (s_dx s1) in X. set (w3 := update_nodes_w (sync_aux (s_w s1)) (s_dx s1)) in *.
  destruct (chi2_fst w3 true) as [_ N4]. destruct (chi2 true w3) as [w4 x]. cbn [fst] in *.
  assert (F4 : firm w4) by (apply (firm_same w3); auto; apply firm_upd, firm_aux, (firm_same (s_w s)); auto).
  destruct (Rltb _ 0); [|destruct (Rltb _ _)]; injection X as <- <-; cbn; auto. apply firm_state; auto.
Qed.
Lemma firm_solve lin m k la tol s s' : solve lin m k la tol s = Some s' -> firm (s_w s) -> firm (s_w s').
Proof.
  unfold solve. intros E F. destruct m.
  - destruct (optimize_gauss_newton lin false _) as [s1|] eqn:Q; [|discriminate]. cbn in E. injection E as <-. destruct (gn_frame _ _ _ _ Q) as (_ & N1 & _). cbn. apply firm_upd. apply (firm_same (s_w s)); auto.
  - destruct (optimize_levenberg_marquardt lin k _) as [[s1 j]|] eqn:Q; [|discriminate]. cbn in E. injection E as <-. unfold optimize_levenberg_marquardt in Q. apply lm_loop_spec in Q; [|lia]. destruct Q as (es & e & I & _). clear - I F.
    revert F. change (s_w s) with (s_w (with_lambda (with_tol (with_lambda s la) tol) (1 / 100000))). induction I as [|a b c e1 es1 H _ IH]; auto. intros F. apply IH. eapply firm_lm_iter; eauto.
Qed.
(** ** one call *)
Definition init_firm (cl : fclass) : Prop := match fc_init cl with Some (_, g) => forall vs, Forall firmv vs -> firmv (g vs) | None => True end.
Lemma solid_id : solid m4id.
Proof. repeat split. unfold m4id, m3id, m3det. cbn. lra. Qed.
Lemma call_init_firm c cl ids W : solid_call c -> call_factor c = Some (cl, ids, W) -> init_firm cl.
Proof.
  intros S. unfold call_factor, init_firm. destruct c; cbn [pycall_op solid_call] in *; try discriminate; try (destruct (_ <? _)%nat); intros E; injection E as <- <- <-; cbn; auto.
  all: try (destruct updateNodeTarget; cbn; auto). all: try (destruct initializeLandmark; cbn; auto).
  all: intros vs Fv; repeat (destruct vs as [|[] vs]; cbn; auto using solid_id).
  all: inversion_clear Fv as [|? ? F1 F2]; inversion_clear F2 as [|? ? F3 F4]; cbn in F1, F3; apply solid_mul; auto.
Qed.
Lemma firm_add w dim alldim ns res jac info rob u : firm w -> grun w [ONewFactor dim alldim ns res jac info rob; OAddFactor (length (w_factors w))] = Some u -> firm u.
Proof. intros F E l. destruct (add_nd _ _ _ _ _ _ _ _ _ E) as (ND & _). destruct (ND l) as [-> _]. apply F. Qed.
Lemma factor_step rob ns fs w cl ids W u : holds rob ns fs w -> py_factor rob w cl ids W = Some u ->
  holds rob ns (fs ++ [(cl, ids, W)]) u /\ (firm w -> init_firm cl -> firm u).
Proof.
  intros H E. unfold py_factor in E. destruct (get_nodes w ids) as [ls|]; [|discriminate]. unfold init_firm. destruct (fc_init cl) as [[p g]|].
  - destruct (nth_error ls p) as [n|]; [|discriminate]. set (nf := [ONewFactor (fc_dim cl) (fc_alldim cl) ls (fc_res cl) (fc_jac cl) W rob; OAddFactor (length (w_factors w))]) in *.
    change (match gstep w (OSetState n (g (map (fun l => nst (n_data (nd w l))) ls))) with Some w1 => grun w1 nf | None => None end = Some u) in E.
    cbn [gstep] in E. destruct (set_state w n _) as [w1|] eqn:Q; [|discriminate]. destruct (set_skel _ _ _ _ Q) as (K & F & _ & _ & D). unfold nf in E. rewrite <- F in E.
    split. { eapply holds_add; [|exact E]. eapply holds_skel; eauto. }
    intros Fw Ig. apply (firm_add _ _ _ _ _ _ _ _ _) in E; auto. intros l. rewrite D. destruct (Nat.eqb l n); [|apply Fw]. cbn. split; [|apply Fw]. apply firm_set, Ig. apply Forall_forall. intros v V. apply in_map_iff in V. destruct V as (q & <- & _). apply Fw.
  - cbn [app] in E. split. { eapply holds_add; eauto. } intros Fw _. eapply firm_add; eauto.
Qed.
Definition nodes_of1 (c : pycall) : list (node_mode * nval) := match c with CNode m v => [(m, v)] | _ => [] end.
Lemma call_step lin rob ns fs s c t : good (s_w s) -> holds rob ns fs (s_w s) -> pystep lin rob s (pycall_op c) = Some t ->
  holds rob (ns ++ nodes_of1 c) (fs ++ facts c) (s_w t) /\ (firm (s_w s) -> solid_call c -> firm (s_w t)).
Proof.
  intros G H E. assert (B : forall cl ids W, call_factor c = Some (cl, ids, W) -> holds rob ns (fs ++ [(cl, ids, W)]) (s_w t) /\ (firm (s_w s) -> solid_call c -> firm (s_w t))).
  { intros cl ids W F. pose proof (call_init_firm c cl ids W) as Fi. unfold call_factor in *. destruct (pycall_op c) eqn:O; try discriminate. injection F as -> -> ->. cbn [pystep] in E. destruct (py_factor _ _ _ _ _) as [u|] eqn:P; [|discriminate].
    cbn in E. injection E as <-. cbn [with_world s_w]. destruct (factor_step _ _ _ _ _ _ _ _ H P) as [A1 A2]. split; auto. }
  unfold facts. destruct (call_factor c) as [[[cl ids] W]|] eqn:F.
  - replace (nodes_of1 c) with (@nil (node_mode * nval)). rewrite app_nil_r. apply B; reflexivity. destruct c; try reflexivity. discriminate.
  - rewrite app_nil_r. destruct c; cbn [pycall_op nodes_of1] in *;
      try (unfold call_factor in F; cbn [pycall_op] in F; try discriminate; destruct (_ <? _)%nat in F; discriminate); rewrite ?app_nil_r.
    + cbn [pystep] in E. destruct (py_node _ _ _) as [u|] eqn:P; [|discriminate]. cbn in E. injection E as <-. cbn [with_world s_w]. split; [eapply holds_node; eauto|].
      intros Fw Sc l. rewrite (node_nd _ _ _ _ P). destruct (Nat.eqb _ _); [|apply Fw]. cbn. destruct v; cbn in *; auto.
    + cbn [pystep] in E. destruct (solve_frame _ _ _ _ _ _ _ E) as (SK & _). split; [eapply holds_skel; eauto|]. intros Fw _. eapply firm_solve; eauto.
    + cbn [pystep] in E. injection E as <-. cbn [with_world s_w]. destruct (chi2_fst (s_w s) evaluate) as [SK N]. split; [eapply holds_skel; eauto|]. intros Fw _. apply (firm_same (s_w s)); auto.
Qed.
Lemma call_run lin rob cs : forall ks ns fs s, good (s_w s) -> tracks ks fs (s_w s) -> holds rob ns fs (s_w s) -> typed ks cs ->
  exists s', pycalls lin rob s cs = Some s' /\ good (s_w s') /\ tracks (fold_left kinds_after cs ks) (fs ++ flat_map facts cs) (s_w s') /\ holds rob (ns ++ nodes_of cs) (fs ++ flat_map facts cs) (s_w s') /\
   (firm (s_w s) -> Forall solid_call cs -> firm (s_w s')).
Proof.
  unfold pycalls. induction cs as [|c cs IH]; intros ks ns fs s D T Ho H; cbn [map pyrun flat_map fold_left].
  - exists s. unfold nodes_of; cbn. rewrite !app_nil_r. auto.
  - destruct H as [H1 H2]. destruct (pystep_good lin rob s (pycall_op c) D (typed_clean _ _ _ _ T H1)) as (s1 & E & D1). rewrite E.
    destruct (call_step lin rob ns fs s c s1 D Ho E) as [Ho1 Fi].
    destruct (IH (kinds_after ks c) (ns ++ nodes_of1 c) (fs ++ facts c) s1 D1 (track_call _ _ _ _ _ _ _ D T H1 E) Ho1 H2) as (s' & R & G & T' & Ho' & Fi').
    exists s'. split; auto. split; auto. rewrite app_assoc. split; auto. change (nodes_of (c :: cs)) with (nodes_of1 c ++ nodes_of cs). rewrite app_assoc. split; auto.
    intros F A. inversion_clear A. auto.
Qed.
Lemma firm_new : firm world_new.
Proof. intros [|l]; cbn; split; exact I. Qed.
(** what a typed session establishes *)
Record inv (rob : robust_type) (cs : list pycall) (w : world) : Prop := {
  iv_good : good w; iv_tracks : tracks (fold_left kinds_after cs []) (flat_map facts cs) w; iv_holds : holds rob (nodes_of cs) (flat_map facts cs) w }.
Lemma session_inv lin rob cs : typed [] cs -> exists s, pycalls lin rob (solver_new world_new) cs = Some s /\ inv rob cs (s_w s) /\ (Forall solid_call cs -> firm (s_w s)).
Proof.
  intros T. destruct (call_run lin rob cs [] [] [] (solver_new world_new) good_new tracks_new (holds_new rob) T) as (s & E & G & Tr & Ho & Fi). exists s. split; auto. split; [constructor; auto|]. intros A. apply Fi; auto. apply firm_new.
Qed.
Lemma inv_skel rob cs w w' : inv rob cs w -> skel w w' -> kinds_kept w w' -> inv rob cs w'.
Proof.
  intros [G T H] K KK. constructor. apply (good_kk w); auto. eapply tracks_skel; eauto. eapply holds_skel; eauto.
Qed.
(** ** calls and factors *)
Lemma kinds_more cs : forall ks, exists r, fold_left kinds_after cs ks = ks ++ r.
Proof.
  induction cs as [|c cs IH]; intros ks; cbn. { exists []. rewrite app_nil_r. auto. }
  destruct (IH (kinds_after ks c)) as [r ->]. destruct c; cbn; eauto. rewrite <- app_assoc. eauto.
Qed.
Lemma typed1_more ks r c : typed1 ks c -> typed1 (ks ++ r) c.
Proof.
  assert (A : forall i k, nth_error ks i = Some k -> nth_error (ks ++ r) i = Some k) by (intros i k E; rewrite nth_error_app1; auto; apply nth_error_Some; congruence).
  destruct c; cbn; intuition.
Qed.
Lemma typed_in cs c : forall ks, typed ks cs -> In c cs -> typed1 (fold_left kinds_after cs ks) c.
Proof.
  induction cs as [|d cs IH]; intros ks T I; [destruct I|]. destruct T as [T1 T2]. cbn [fold_left]. destruct I as [->|I]; [|apply IH; auto].
  destruct (kinds_more cs (kinds_after ks c)) as [r ->]. apply typed1_more. destruct c; cbn in *; auto.
Qed.
Lemma kinds_nodes cs : forall ks, fold_left kinds_after cs ks = ks ++ map (fun p => kind_of (snd p)) (nodes_of cs).
Proof.
  induction cs as [|c cs IH]; intros ks; cbn [fold_left]. { unfold nodes_of; cbn. rewrite app_nil_r. auto. }
  rewrite IH. change (nodes_of (c :: cs)) with (nodes_of1 c ++ nodes_of cs). rewrite map_app. destruct c; cbn; auto. rewrite <- app_assoc. reflexivity.
Qed.
Lemma state_kind rob cs w i k : inv rob cs w -> nth_error (fold_left kinds_after cs []) i = Some k -> exists l, get_node w i = Some l /\ kind_of (state_of w i) = k /\ (l < length (w_nodes w))%nat /\ n_dim (nd w l) = nval_dim (state_of w i).
Proof.
  intros [G T H] E. destruct (node_at _ _ _ _ _ T E) as (_ & l & Gl & K). exists l. split; auto. unfold state_of. rewrite Gl. split; auto. destruct (gd_ids _ G i l Gl) as [L _]. split; auto. apply (gd_kind _ G l L).
Qed.
Definition inc_of (w : world) (x : nat -> R) (i : nat) : nat -> R := match get_node w i with Some l => increments w x l | None => fun _ => 0 end.
Lemma get_nodes_map {A} w (f : loc -> A) (dflt : A) ids : forall ls, get_nodes w ids = Some ls -> map f ls = map (fun i => match get_node w i with Some l => f l | None => dflt end) ids.
Proof.
  induction ids as [|i ids IH]; intros ls E; cbn in E. { injection E as <-. reflexivity. }
  destruct (get_node w i) as [l|] eqn:G; [|discriminate]. destruct (get_nodes w ids) as [r|]; [|discriminate]. injection E as <-. cbn. rewrite G, (IH r eq_refl). reflexivity.
Qed.
Lemma jac_times_class rob cs w k cl ids W x i : inv rob cs w -> nth_error (flat_map facts cs) k = Some (cl, ids, W) ->
  In k (g_factors (w_graph w)) /\ jac_times w k (increments w x) i = row_dir (fc_jac cl (map (state_of w) ids) i) 0 (map (state_of w) ids) (map (inc_of w x) ids).
Proof.
  intros [G T H] E. assert (I : In k (g_factors (w_graph w))). { rewrite (tk_fac _ _ _ T). apply in_seq. split; [lia|]. cbn [Nat.add]. apply nth_error_Some. congruence. }
  split; auto. rewrite (jac_times_row w k _ i G I). unfold jtimes. destruct (tk_cls _ _ _ T k cl ids W E) as (_ & _ & _ & N). rewrite (ho_jac _ _ _ _ H k cl ids W E).
  unfold states_of. rewrite (get_nodes_states w ids _ N). rewrite (get_nodes_map w (increments w x) (fun _ => 0) ids _ N). reflexivity.
Qed.
Lemma in_facts c cs cl ids W : In c cs -> call_factor c = Some (cl, ids, W) -> exists k, nth_error (flat_map facts cs) k = Some (cl, ids, W).
Proof. intros I E. apply In_nth_error. apply in_flat_map. exists c. split; auto. unfold facts. rewrite E. cbn; auto. Qed.
Lemma facts_in cs k cl ids W : nth_error (flat_map facts cs) k = Some (cl, ids, W) -> exists c, In c cs /\ call_factor c = Some (cl, ids, W).
Proof. intros E. apply nth_error_In in E. apply in_flat_map in E. destruct E as (c & I & F). exists c. split; auto. unfold facts in F. destruct (call_factor c) as [f|]; [|destruct F]. destruct F as [->|[]]. reflexivity. Qed.
Lemma inv_infos rob cs w : inv rob cs w -> Forall call_info cs -> rob <> RANSAC -> sym_infos w /\ psd_infos w /\ forall l, In l (g_factors (w_graph w)) -> 0 < weight_at w l.
Proof.
  intros [G T H] P R. assert (X : forall l, In l (g_factors (w_graph w)) -> proper (fdim w l) (f_info (fa w l))).
  { intros l I. rewrite (tk_fac _ _ _ T) in I. apply in_seq in I. destruct (nth_error (flat_map facts cs) l) as [[[cl ids] W]|] eqn:E; [|apply nth_error_None in E; lia].
    destruct (tk_cls _ _ _ T l cl ids W E) as (D & _ & W' & _). unfold fdim. rewrite D, W'. destruct (facts_in _ _ _ _ _ E) as (c & Ic & F). rewrite Forall_forall in P. specialize (P c Ic). unfold call_info in P. rewrite F in P. exact P. }
  split; [intros l I; apply X; auto|]. split; [intros l I; apply X; auto|].
  intros l I. unfold weight_at. rewrite (tk_fac _ _ _ T) in I. apply in_seq in I. rewrite (ho_rob _ _ _ _ H l) by lia. apply robust_bounds; auto. apply sqrt_pos.
Qed.
(** ** held graphs *)
Lemma lsum_zero_all {A} (l : list A) f : (forall a, In a l -> 0 <= f a) -> lsum l f = 0 -> forall a, In a l -> f a = 0.
Proof.
  induction l as [|b l IH]; intros P Z a I; [destruct I|]. change (lsum (b :: l) f) with (f b + lsum l f) in Z.
  assert (0 <= f b) by (apply P; cbn; auto). assert (0 <= lsum l f) by (apply lsum_nonneg; intros; apply P; cbn; auto). destruct I as [->|I]; [lra|]. apply IH; auto. intros; apply P; cbn; auto. lra.
Qed.
Lemma zero_form rob cs w x : inv rob cs w -> Forall call_info cs -> rob <> RANSAC -> gn_form w x x = 0 ->
  forall c cl ids W, In c cs -> call_factor c = Some (cl, ids, W) -> positive (fc_dim cl) W -> unseen cl (map (state_of w) ids) (map (inc_of w x) ids).
Proof.
  intros V P R Z c cl ids W I E Po. destruct (in_facts _ _ _ _ _ I E) as [k K]. destruct (jac_times_class rob cs w k cl ids W x 0%nat V K) as [Ik _]. destruct (inv_infos rob cs w V P R) as (Sy & Ps & We).
  unfold gn_form in Z. pose proof (lsum_zero_all _ _ (fun l Il => Rmult_le_pos _ _ (Rlt_le _ _ (We l Il)) (eq_ind_r (fun q => 0 <= q) (Ps l Il (jac_times w l (increments w x))) (quad_sym _ _ _ _ (Sy l Il)))) Z k Ik) as Q. cbv beta in Q.
  rewrite quad_sym in Q by (apply Sy; exact Ik). specialize (We k Ik). assert (Q' : quad (fdim w k) (f_info (fa w k)) (jac_times w k (increments w x)) (jac_times w k (increments w x)) = 0) by nra.
  destruct (tk_cls _ _ _ (iv_tracks _ _ _ V) k cl ids W K) as (D & _ & W' & _). unfold fdim in Q'. rewrite D, W' in Q'. intros i Hi. destruct (jac_times_class rob cs w k cl ids W x i V K) as [_ <-]. exact (Po _ Q' i Hi).
Qed.
Definition still (w : world) (x : nat -> R) (i : nat) : Prop := none_below (nval_dim (state_of w i)) (inc_of w x i).
Lemma firm_state_of w i T : firm w -> state_of w i = P3 T -> solid T.
Proof. intros F. unfold state_of. destruct (get_node w i) as [l|]; [|discriminate]. intros E. destruct (F l) as [A _]. rewrite E in A. exact A. Qed.
Lemma held_still rob cs w x : typed [] cs -> inv rob cs w -> firm w -> Forall solid_call cs -> Forall call_info cs -> rob <> RANSAC -> gn_form w x x = 0 -> forall i, held cs i -> still w x i.
Proof.
  intros T V Fi So P R Z i Hh. pose proof (fun c I cl ids W => zero_form rob cs w x V P R Z c cl ids W I) as U.
  assert (K : forall i k, nth_error (fold_left kinds_after cs []) i = Some k -> kind_of (state_of w i) = k). { intros j k E. destruct (state_kind rob cs w j k V E) as (_ & _ & A & _). exact A. }
  assert (So' : forall obs i j W u, In (C2Poses3d obs i j W u) cs -> solid obs). { intros obs a b W u I. rewrite Forall_forall in So. exact (So _ I). }
  assert (Fs : forall i T, state_of w i = P3 T -> solid T) by (intros; eapply firm_state_of; eauto).
  unfold still. induction Hh as [i v Hn|obs i W I Po|obs i W I Po|obs i j W u I Po _ IH|obs i j W u I Po _ IH|obs i j W I Po _ IH|obs i j W I Po _ IH|obs i j W u I Po _ IH|obs i j W u I Po _ IH|r b i j W u I Po _ IH|obs i j W u I Po _ IH|obs i j W I Po _ IH];
    try (pose proof (typed_in cs _ [] T I) as Ty; cbn [typed1] in Ty).
  - intros k _. unfold inc_of. destruct (get_node w i) as [l|] eqn:G; auto. unfold increments, is_anchor. pose proof (ho_mode _ _ _ _ (iv_holds _ _ _ V) i l G) as M. rewrite Hn in M. cbn in M. injection M as <-. reflexivity.
  - specialize (U _ I _ _ _ eq_refl Po). apply K in Ty. cbn [map] in U. destruct (state_of w i); try discriminate. eapply hold_pose2d; eauto.
  - specialize (U _ I _ _ _ eq_refl Po). apply K in Ty. cbn [map] in U. destruct (state_of w i); try discriminate. eapply hold_pose3d; eauto.
  - destruct Ty as (_ & Ti & Tj). apply K in Ti. apply K in Tj. specialize (U _ I). unfold call_factor in U. cbn [pycall_op] in U. destruct (i <? j)%nat; specialize (U _ _ _ eq_refl Po); cbn [map] in U; destruct (state_of w i), (state_of w j); try discriminate; apply hold_2poses2d in U; apply U; auto.
  - destruct Ty as (_ & Ti & Tj). apply K in Ti. apply K in Tj. specialize (U _ I). unfold call_factor in U. cbn [pycall_op] in U. destruct (i <? j)%nat; specialize (U _ _ _ eq_refl Po); cbn [map] in U; destruct (state_of w i), (state_of w j); try discriminate; apply hold_2poses2d in U; apply U; auto.
  - destruct Ty as (_ & Ti & Tj). apply K in Ti. apply K in Tj. specialize (U _ I). unfold call_factor in U. cbn [pycall_op] in U. destruct (i <? j)%nat; specialize (U _ _ _ eq_refl Po); cbn [map] in U; destruct (state_of w i), (state_of w j); try discriminate; apply hold_odom in U; apply U; auto.
  - destruct Ty as (_ & Ti & Tj). apply K in Ti. apply K in Tj. specialize (U _ I). unfold call_factor in U. cbn [pycall_op] in U. destruct (i <? j)%nat; specialize (U _ _ _ eq_refl Po); cbn [map] in U; destruct (state_of w i), (state_of w j); try discriminate; apply hold_odom in U; apply U; auto.
  - destruct Ty as (_ & Ti & Tj). apply K in Ti. apply K in Tj. specialize (So' _ _ _ _ _ I). pose proof (Fs i) as Fa. pose proof (Fs j) as Fb. specialize (U _ I). unfold call_factor in U. cbn [pycall_op] in U. destruct (i <? j)%nat; specialize (U _ _ _ eq_refl Po); cbn [map] in U; destruct (state_of w i), (state_of w j); try discriminate; apply hold_2poses3d in U; auto; apply U; auto.
  - destruct Ty as (_ & Ti & Tj). apply K in Ti. apply K in Tj. specialize (So' _ _ _ _ _ I). pose proof (Fs i) as Fa. pose proof (Fs j) as Fb. specialize (U _ I). unfold call_factor in U. cbn [pycall_op] in U. destruct (i <? j)%nat; specialize (U _ _ _ eq_refl Po); cbn [map] in U; destruct (state_of w i), (state_of w j); try discriminate; apply hold_2poses3d in U; auto; apply U; auto.
  - destruct Ty as (Ti & Tj). apply K in Ti. apply K in Tj. specialize (U _ I). unfold call_factor in U. cbn [pycall_op] in U. destruct (i <? j)%nat; specialize (U _ _ _ eq_refl Po); cbn [map] in U; destruct (state_of w i), (state_of w j); try discriminate; [eapply hold_landmark2d; eauto | eapply hold_landmark2d_rev; eauto].
  - destruct Ty as (Ti & Tj). apply K in Ti. apply K in Tj. pose proof (Fs i) as Fa. specialize (U _ I). unfold call_factor in U. cbn [pycall_op] in U. destruct (i <? j)%nat; specialize (U _ _ _ eq_refl Po); cbn [map] in U; destruct (state_of w i), (state_of w j); try discriminate; [eapply hold_landmark3d; eauto | eapply hold_landmark3d_rev; eauto].
  - destruct Ty as (Ti & Tj). apply K in Ti. apply K in Tj. pose proof (Fs i) as Fa. specialize (U _ I). unfold call_factor in U. cbn [pycall_op] in U. destruct (i <? j)%nat; specialize (U _ _ _ eq_refl Po); cbn [map] in U; destruct (state_of w i), (state_of w j); try discriminate; [eapply hold_plane; eauto | eapply hold_plane_rev; eauto].
Qed.
Lemma active_id rob cs w m l : inv rob cs w -> nth_error (g_active (w_graph w)) m = Some l -> exists i, get_node w i = Some l /\ (i < length (nodes_of cs))%nat.
Proof.
  intros V E. apply nth_error_In in E. apply (gd_act _ (iv_good _ _ _ V)) in E. destruct (In_nth_error _ _ E) as [i I]. exists i. split; auto. rewrite <- (ho_nlen _ _ _ _ (iv_holds _ _ _ V)). apply nth_error_Some. congruence.
Qed.
Lemma held_regular rob cs s b : typed [] cs -> inv rob cs (s_w s) -> firm (s_w s) -> Forall solid_call cs -> Forall call_info cs -> rob <> RANSAC ->
  (forall i, (i < length (nodes_of cs))%nat -> held cs i) -> build_problem false s = Some b -> nonsingular (g_stateDim (w_graph (s_w s))) (s_L b).
Proof.
  intros T V Fi So P R Hd. pose proof (gd_wf _ (iv_good _ _ _ V)) as Wf. apply gn_regular; auto. intros x Z. apply (same_incr (s_w s) x (fun _ => 0) Wf). intros m l k Hm Hk.
  destruct (active_id rob cs _ m l V Hm) as (i & Gi & Li). pose proof (held_still rob cs (s_w s) x T V Fi So P R Z i (Hd i Li)) as St. unfold still, inc_of in St. rewrite Gi in St. rewrite St.
  - unfold increments. destruct (is_anchor _); reflexivity.
  - unfold ndim in Hk. unfold state_of. rewrite Gi. destruct (gd_ids _ (iv_good _ _ _ V) i l Gi) as [L _]. destruct (gd_kind _ (iv_good _ _ _ V) l L) as [<- _]. exact Hk.
Qed.
