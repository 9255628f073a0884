(** Python sessions in two coordinate frames (C79). *)
Require Import Reals List Arith Lia Lra Bool.
From Verif Require Import Lin SO3 Nodes NodesProofs Robust Graph GraphProofs Sums Solve SpecSolve SolveIndex SolveFrame SolveSums SolveBuild SolveProofs Session SessionProofs.
From Verif Require Import Factors SpecFactors FactorsPlanar FactorsSession SpecFrame FrameFactors FrameSolve.
Import ListNotations.
Local Open Scope R_scope.
Local Arguments nd : simpl never.
Local Arguments fa : simpl never.

(** ** building the graph *)
Lemma py_node_eq w m v : py_node w m v = Some (mkW (upd (w_nodes w ++ [node_ctor m v]) (length (w_nodes w)) (node_set_id (length (g_nodes (w_graph w))))) (w_factors w)
  (mkGraph (g_nodes (w_graph w) ++ [length (w_nodes w)])
     (if match m with STANDARD => true | _ => false end then g_active (w_graph w) ++ [length (w_nodes w)] else g_active (w_graph w)) (g_factors (w_graph w)) (g_eigen (w_graph w))
     (if match m with STANDARD => true | _ => false end then g_stateDim (w_graph w) + nval_dim v else g_stateDim (w_graph w))%nat (g_obsDim (w_graph w)))).
Proof.
  unfold py_node. cbn [grun gstep]. unfold add_node, alloc_node. cbn [w_nodes w_factors w_graph]. rewrite nth_error_app2, Nat.sub_diag by lia. reflexivity.
Qed.
Lemma sim_node sol g w w' m v v' u u' : good w -> sim sol g w w' -> moved g v v' -> py_node w m v = Some u -> py_node w' m v' = Some u' -> sim sol g u u'.
Proof.
  intros G S M E E'. rewrite py_node_eq in E, E'. injection E as <-. injection E' as <-.
  pose proof S as [S1 S2 S3 S4 S5]. rewrite S1, S2, (moved_dim _ _ _ M). set (k := length (g_nodes (w_graph w))). set (gr := mkGraph _ _ _ _ _ _).
  assert (ND : forall w0 v0 l, nd (mkW (upd (w_nodes w0 ++ [node_ctor m v0]) (length (w_nodes w0)) (node_set_id k)) (w_factors w0) gr) l = if Nat.eqb l (length (w_nodes w0)) then node_set_id k (node_ctor m v0) else nd w0 l).
  { intros w0 v0 l. unfold nd at 1; cbn [w_nodes]. rewrite nth_upd, app_length. cbn [length]. pose proof (nd_alloc w0 (node_ctor m v0) l [] (w_graph w0)) as Q. unfold nd at 1 in Q; cbn [w_nodes] in Q. rewrite Q. clear Q.
    destruct (Nat.eqb_spec l (length (w_nodes w0))) as [El|]; [|reflexivity]. cbn [andb]. rewrite El. destruct (Nat.ltb_spec (length (w_nodes w0)) (length (w_nodes w0) + 1)); [reflexivity|lia]. }
  constructor.
  - reflexivity.
  - cbn. rewrite !upd_length, !app_length, S2. reflexivity.
  - cbn. exact S3.
  - intros l Hl. pose proof (ND w' v' l) as Q. rewrite S2 in Q. rewrite ND, Q. destruct (Nat.eqb_spec l (length (w_nodes w))) as [->|N].
    + cbn. rewrite (moved_dim _ _ _ M). pose proof (init_moved _ _ _ M). auto 8.
    + apply S4. cbn in Hl. rewrite upd_length, app_length in Hl. cbn in Hl. lia.
  - intros l I. cbn [w_graph gr g_factors] in I. specialize (S5 l I).     assert (KS : forall w0, w0 = mkW (upd (w_nodes w ++ [node_ctor m v]) (length (w_nodes w)) (node_set_id k)) (w_factors w) gr -> states_of w0 (fa w0 l) = states_of w (fa w l)).
    { intros w0 ->. unfold states_of. change (fa (mkW _ (w_factors w) gr) l) with (fa w l). apply map_ext_in. intros n J. rewrite ND. pose proof (neigh_valid_g w l n G I J). destruct (Nat.eqb_spec n (length (w_nodes w))); [lia|reflexivity]. }
    rewrite KS by reflexivity. repeat match goal with |- context [fa (mkW ?a ?b ?c) l] => first [change (fa (mkW a b c) l) with (fa w l) | change (fa (mkW a b c) l) with (fa w' l)] end. exact S5.
Qed.
Lemma set_skel w n v u : set_state w n v = Some u -> skel w u /\ w_factors u = w_factors w /\ (n < length (w_nodes w))%nat /\ same_kind (nst (n_data (nd w n))) v = true /\
  forall l, n_data (nd u l) = if Nat.eqb l n then mkN (val_set v) (nax (n_data (nd w l))) else n_data (nd w l).
Proof.
  intros E. apply set_state_inv in E. destruct E as (x & d & EX & ES & ->). assert (L : (n < length (w_nodes w))%nat) by (apply nth_error_Some; congruence).
  pose proof (nd_nth _ _ _ EX) as <-. unfold node_set_state in ES. destruct (same_kind (nst (n_data (nd w n))) v) eqn:K; [|discriminate]. injection ES as <-.
  assert (ND : forall l, nd (mkW (upd (w_nodes w) n (node_set_data (mkN (val_set v) (nax (n_data (nd w n)))))) (w_factors w) (w_graph w)) l = if Nat.eqb l n then node_set_data (mkN (val_set v) (nax (n_data (nd w n)))) (nd w l) else nd w l).
  { intros l. unfold nd at 1; cbn [w_nodes]. rewrite nth_upd. fold (nd w l). destruct (Nat.eqb_spec l n) as [->|]; [|reflexivity]. apply Nat.ltb_lt in L. rewrite L. reflexivity. }
  split; [|repeat split; auto].
  - apply skel_of_nodes; auto. { cbn. apply upd_length. } intros l. rewrite ND. destruct (Nat.eqb l n); eauto. exists (n_data (nd w l)). rewrite node_set_data_self. reflexivity.
  - intros l. rewrite ND. destruct (Nat.eqb_spec l n) as [->|]; reflexivity.
Qed.
Lemma set_kk w n v u : set_state w n v = Some u -> kinds_kept w u.
Proof.
  intros E. destruct (set_skel _ _ _ _ E) as (_ & _ & _ & K & D). intros l Hl Q. rewrite D. destruct (Nat.eqb_spec l n) as [->|]; [|split; auto; apply kind_refl]. cbn. split; auto. eapply kind_trans; [exact K|apply kind_set].
Qed.
Lemma sim_set sol g w w' n v v' u u' : good w -> sim sol g w w' -> moved g v v' -> set_state w n v = Some u -> set_state w' n v' = Some u' -> sim sol g u u'.
Proof.
  intros G S M E E'. destruct (set_skel _ _ _ _ E) as (K & F & L & _ & D). destruct (set_skel _ _ _ _ E') as (K' & F' & _ & _ & D').
  apply (sim_kk sol g w w'); auto. { eapply set_kk; eauto. }
  - intros l Hl. rewrite D, D'. destruct (sm_node _ _ _ _ S l Hl) as (_ & _ & _ & _ & M1 & M2). destruct (Nat.eqb l n); auto. cbn. split; auto. apply set_moved; auto.
  - intros l I. unfold fa. rewrite F, F'. fold (fa w l) (fa w' l). destruct (sm_fac _ _ _ _ S l I) as (_ & _ & _ & -> & -> & _). auto.
Qed.
Lemma add_new_eq w dim alldim ns res jac info rob u : grun w [ONewFactor dim alldim ns res jac info rob; OAddFactor (length (w_factors w))] = Some u ->
  u = mkW (link_all ns (length (w_factors w)) (w_nodes w)) (upd (w_factors w ++ [factor_ctor dim alldim ns res jac info rob]) (length (w_factors w)) (factor_set_id (length (g_factors (w_graph w)))))
          (mkGraph (g_nodes (w_graph w)) (g_active (w_graph w)) (g_factors (w_graph w) ++ [length (w_factors w)]) (g_eigen (w_graph w)) (g_stateDim (w_graph w)) (g_obsDim (w_graph w) + dim)).
Proof.
  cbn [grun gstep]. unfold alloc_factor. destruct (forallb _ _); [|discriminate]. unfold add_factor. cbn [w_nodes w_factors w_graph]. rewrite nth_error_app2, Nat.sub_diag by lia. cbn. intros E. injection E as <-. reflexivity.
Qed.
Lemma sim_add sol g w w' dim alldim ns res jac info res' jac' info' rob u u' : good w -> sim sol g w w' ->
  Forall (fun n => (n < length (w_nodes w))%nat) ns -> (0 < dim)%nat -> (sol = true -> rob <> RANSAC) ->
  law sol g (map kind_of (map (fun l => nst (n_data (nd w l))) ns)) dim res jac info res' jac' info' ->
  grun w [ONewFactor dim alldim ns res jac info rob; OAddFactor (length (w_factors w))] = Some u ->
  grun w' [ONewFactor dim alldim ns res' jac' info' rob; OAddFactor (length (w_factors w'))] = Some u' -> sim sol g u u'.
Proof.
  intros G S Ns P Ro Lw E E'. apply add_new_eq in E. apply add_new_eq in E'. pose proof S as [S1 S2 S3 S4 S5]. rewrite S1, S3 in E'. set (lf := length (w_factors w)) in *. set (kf := length (g_factors (w_graph w))) in *.
  assert (ND : forall l, nd u l = if Nat.ltb l (length (w_nodes w)) then add_k lf (count_occ Nat.eq_dec ns l) (nd w l) else nd w l).
  { intros l. rewrite <- (nd_link ns lf w l []). subst u. reflexivity. }
  assert (ND' : forall l, nd u' l = if Nat.ltb l (length (w_nodes w')) then add_k lf (count_occ Nat.eq_dec ns l) (nd w' l) else nd w' l).
  { intros l. rewrite <- (nd_link ns lf w' l []). subst u'. reflexivity. }
  assert (FA : forall l, fa u l = if Nat.eqb l lf then factor_set_id kf (factor_ctor dim alldim ns res jac info rob) else fa w l).
  { intros l. subst u. unfold fa at 1; cbn [w_factors]. rewrite nth_upd, app_length. cbn [length]. destruct (Nat.eqb_spec l lf) as [->|N]; cbn [andb].
    - fold lf. destruct (Nat.ltb_spec lf (lf + 1)); [|lia]. rewrite app_nth2 by (fold lf; lia). fold lf. rewrite Nat.sub_diag. reflexivity.
    - unfold fa. destruct (Nat.lt_ge_cases l lf). rewrite app_nth1; auto. rewrite !nth_overflow; auto. rewrite app_length. cbn. fold lf. lia. }
  assert (FA' : forall l, fa u' l = if Nat.eqb l lf then factor_set_id kf (factor_ctor dim alldim ns res' jac' info' rob) else fa w' l).
  { intros l. subst u'. unfold fa at 1; cbn [w_factors]. rewrite nth_upd, app_length. cbn [length]. rewrite S3. fold lf. destruct (Nat.eqb_spec l lf) as [->|N]; cbn [andb].
    - destruct (Nat.ltb_spec lf (lf + 1)); [|lia]. rewrite app_nth2 by (rewrite S3; fold lf; lia). rewrite S3. fold lf. rewrite Nat.sub_diag. reflexivity.
    - unfold fa. destruct (Nat.lt_ge_cases l lf). rewrite app_nth1; auto. rewrite S3; auto. rewrite !nth_overflow; auto; rewrite ?app_length, ?S3; cbn; fold lf; lia. }
  assert (ST : forall ms, map (fun l => nst (n_data (nd u l))) ms = map (fun l => nst (n_data (nd w l))) ms).
  { intros ms. apply map_ext. intros l. rewrite ND. destruct (Nat.ltb _ _); reflexivity. }
  constructor.
  - subst u u'. reflexivity.
  - subst u u'. cbn. rewrite !link_all_length. auto.
  - subst u u'. cbn. rewrite !upd_length, !app_length, S3. auto.
  - intros l Hl. assert (Hl' : (l < length (w_nodes w))%nat) by (subst u; cbn in Hl; rewrite link_all_length in Hl; auto). rewrite ND, ND', S2. destruct (S4 l Hl') as (A1 & A2 & A3 & A4 & A5 & A6).
    destruct (Nat.ltb _ _); cbn; rewrite ?A4; auto 8.
  - intros l I. assert (I' : In l (g_factors (w_graph w)) \/ l = lf). { subst u; cbn in I. apply in_app_iff in I. destruct I as [I|[I|[]]]; auto. }
    rewrite FA, FA'. unfold states_of. rewrite ST. destruct (Nat.eqb_spec l lf) as [->|N].
    + cbn. auto 12.
    + destruct I' as [I'|I']; [|congruence]. exact (S5 l I').
Qed.

(** ** one call *)
Definition class_law (sol : bool) (g : frame) (ks : list kind) (c c' : fclass) (W W' : nat -> nat -> R) : Prop :=
  fc_dim c' = fc_dim c /\ fc_alldim c' = fc_alldim c /\ (0 < fc_dim c)%nat /\ law sol g ks (fc_dim c) (fc_res c) (fc_jac c) W (fc_res c') (fc_jac c') W' /\
  match fc_init c, fc_init c' with
  | None, None => True
  | Some (p, h), Some (p', h') => p' = p /\ forall vs vs', map kind_of vs = ks -> Forall2 (moved g) vs vs' -> moved g (h vs) (h' vs')
  | _, _ => False
  end.
Lemma get_nodes_graph w w' ids : w_graph w' = w_graph w -> get_nodes w' ids = get_nodes w ids.
Proof. intros E. induction ids as [|i ids IH]; cbn; auto. unfold get_node. rewrite E, IH. reflexivity. Qed.
Lemma get_nodes_valid w ids ls : good w -> get_nodes w ids = Some ls -> Forall (fun n => (n < length (w_nodes w))%nat) ls.
Proof.
  intros G. revert ls. induction ids as [|i ids IH]; intros ls E; cbn in E. { injection E as <-. constructor. }
  destruct (get_node w i) as [l|] eqn:Gi; [|discriminate]. destruct (get_nodes w ids) as [r|]; [|discriminate]. injection E as <-. constructor; auto. apply (gd_ids _ G i l Gi).
Qed.
Lemma sim_factor sol g w w' rob c c' ids W W' u u' ls : good w -> sim sol g w w' -> (sol = true -> rob <> RANSAC) -> get_nodes w ids = Some ls ->
  class_law sol g (map kind_of (map (fun l => nst (n_data (nd w l))) ls)) c c' W W' ->
  py_factor rob w c ids W = Some u -> py_factor rob w' c' ids W' = Some u' -> sim sol g u u'.
Proof.
  intros G S Ro Gl (D & Da & Dp & Lw & In0) E E'. pose proof (get_nodes_valid _ _ _ G Gl) as V. unfold py_factor in E, E'. rewrite (get_nodes_graph w w' ids (sm_graph _ _ _ _ S)), Gl in E'. rewrite Gl in E. rewrite D, Da in E'.
  destruct (fc_init c) as [[p h]|], (fc_init c') as [[p' h']|]; try contradiction.
  - destruct In0 as [-> In0]. destruct (nth_error ls p) as [n|] eqn:En; [|discriminate]. cbn [app] in E, E'.
    set (nf := [ONewFactor (fc_dim c) (fc_alldim c) ls (fc_res c) (fc_jac c) W rob; OAddFactor (length (w_factors w))]) in *.
    set (nf' := [ONewFactor (fc_dim c) (fc_alldim c) ls (fc_res c') (fc_jac c') W' rob; OAddFactor (length (w_factors w'))]) in *.
    change (match gstep w (OSetState n (h (map (fun l => nst (n_data (nd w l))) ls))) with Some w1 => grun w1 nf | None => None end = Some u) in E.
    change (match gstep w' (OSetState n (h' (map (fun l => nst (n_data (nd w' l))) ls))) with Some w1 => grun w1 nf' | None => None end = Some u') in E'.
    cbn [gstep] in E, E'. destruct (set_state w n _) as [w1|] eqn:Q; [|discriminate]. destruct (set_state w' n _) as [w1'|] eqn:Q'; [|discriminate].
    assert (MV : Forall2 (moved g) (map (fun l => nst (n_data (nd w l))) ls) (map (fun l => nst (n_data (nd w' l))) ls)).
    { clear - V S. induction V; cbn; constructor; auto. apply (sm_node _ _ _ _ S); auto. }
    pose proof (sim_set sol g w w' n _ _ w1 w1' G S (In0 _ _ eq_refl MV) Q Q') as S1. destruct (set_skel _ _ _ _ Q) as (K & F & _). destruct (set_skel _ _ _ _ Q') as (K' & F' & _).
    assert (G1 : good w1) by (apply (good_kk w); auto; eapply set_kk; eauto).
    unfold nf in E. unfold nf' in E'. rewrite <- F in E. rewrite <- F' in E'.
    apply (sim_add sol g w1 w1' (fc_dim c) (fc_alldim c) ls (fc_res c) (fc_jac c) W (fc_res c') (fc_jac c') W' rob); auto.
    + rewrite (sk_nlen _ _ K). exact V.
    + assert (KS : map kind_of (map (fun l => nst (n_data (nd w1 l))) ls) = map kind_of (map (fun l => nst (n_data (nd w l))) ls)); [|rewrite KS; exact Lw].
      rewrite !map_map. apply map_ext_in. intros l I. rewrite Forall_forall in V. symmetry. apply kind_same. apply (set_kk _ _ _ _ Q l (V l I)). apply (gd_kind _ G l (V l I)).
  - apply (sim_add sol g w w' (fc_dim c) (fc_alldim c) ls (fc_res c) (fc_jac c) W (fc_res c') (fc_jac c') W' rob); auto.
Qed.
Lemma class_2poses2d sol g obs rev upd W : (sol = true -> proper 3 W) -> (upd = true -> same_heading (fr_angle g) 0) ->
  class_law sol g [KP2; KP2] (c_2poses2d obs (target_pos rev upd)) (c_2poses2d obs (target_pos rev upd)) W W.
Proof.
  intros P H. split; [reflexivity|]. split; [reflexivity|]. split; [cbn; lia|]. split; [apply law_2poses2d; auto|]. destruct upd; cbn; auto. split; auto. intros vs vs' K M. planar2 K M.
  destruct rev; cbn [Nat.eqb]; apply init_2poses2d_moved; auto.
Qed.
Lemma class_odom sol g obs rev W W' : (sol = true -> proper 3 W /\ proper 3 W') -> turned 3 g W W' ->
  class_law sol g [KP2; KP2] (c_odom obs (target_pos rev true)) (c_odom obs (target_pos rev true)) W W'.
Proof.
  intros P T. split; [reflexivity|]. split; [reflexivity|]. split; [cbn; lia|]. split; [apply law_odom; auto|]. cbn. split; auto. intros vs vs' K M. planar2 K M.
  destruct rev; cbn [Nat.eqb]; apply init_odom_moved; auto.
Qed.
Lemma class_pose2d sol g obs obs' W W' : (sol = true -> proper 3 W /\ proper 3 W') -> turned 3 g W W' -> moved g (P2 obs) (P2 obs') -> class_law sol g [KP2] (c_pose2d obs) (c_pose2d obs') W W'.
Proof. intros P T M. split; [reflexivity|]. split; [reflexivity|]. split; [cbn; lia|]. split; [apply law_pose2d; auto|]. exact I. Qed.
Lemma class_landmark2d sol g r be rev init W : (sol = true -> proper 2 W /\ turned 2 g W W) ->
  class_law sol g (ord2 rev KP2 KL2) (c_landmark2d r be rev init) (c_landmark2d r be rev init) W W.
Proof.
  intros P. split; [reflexivity|]. split; [reflexivity|]. split; [cbn; lia|]. split; [apply law_landmark2d; auto|]. cbn. destruct init; auto. split; auto. intros vs vs' K M. destruct rev; cbn in K; planar2 K M; apply init_landmark2d_moved; auto.
Qed.
Lemma framed_typed sol g ks c c' : framed sol g c c' -> typed1 ks c -> typed1 ks c' /\ kinds_after ks c' = kinds_after ks c.
Proof.
  destruct c, c'; cbn [framed]; try contradiction; cbn [typed1 kinds_after].
  - intros (-> & M) T. rewrite (moved_kind _ _ _ M). auto.
  - intros (_ & -> & _). auto.
  - intros (_ & -> & -> & _). auto.
  - intros (_ & -> & -> & _). auto.
  - intros (_ & _ & -> & -> & _). auto.
  - auto.
  - auto.
Qed.
Lemma framed_typeds sol g cs : forall ks cs', Forall2 (framed sol g) cs cs' -> typed ks cs -> typed ks cs'.
Proof.
  induction cs as [|c cs IH]; intros ks cs' F T; inversion F as [|? c' ? cs1 F1 F2]; subst; cbn; auto. destruct T as [T1 T2]. destruct (framed_typed _ _ _ _ _ F1 T1) as [T1' E]. split; auto. rewrite E. auto.
Qed.
Lemma kinds_at ks fs w ids ls : tracks ks fs w -> get_nodes w ids = Some ls -> map Some (map kind_of (map (fun l => nst (n_data (nd w l))) ls)) = map (nth_error ks) ids.
Proof.
  intros T. revert ls. induction ids as [|i ids IH]; intros ls E; cbn in E. { injection E as <-. reflexivity. }
  destruct (get_node w i) as [l|] eqn:Gi; [|discriminate]. destruct (get_nodes w ids) as [r|] eqn:Gr; [|discriminate]. injection E as <-. cbn [map]. rewrite (IH r eq_refl). f_equal. symmetry. apply (tk_kind _ _ _ T i l Gi).
Qed.
Lemma call_sim sol lin rob g ks fs s s' c c' t t' : (sol = true -> exact lin /\ rob <> RANSAC) -> good (s_w s) -> good (s_w s') -> tracks ks fs (s_w s) -> sim sol g (s_w s) (s_w s') ->
  typed1 ks c -> framed sol g c c' ->
  match c with CSolve GN _ _ _ => forall b, build_problem false s = Some b -> nonsingular (g_stateDim (w_graph (s_w s))) (s_L b) | _ => True end ->
  pystep lin rob s (pycall_op c) = Some t -> pystep lin rob s' (pycall_op c') = Some t' -> sim sol g (s_w t) (s_w t').
Proof.
  intros X G G' T S Ty F H E E'.
  assert (FAC : forall cl cl' ids W W' t t', (exists kl, map Some kl = map (nth_error ks) ids /\ class_law sol g kl cl cl' W W') ->
     pystep lin rob s (PyFactor cl ids W) = Some t -> pystep lin rob s' (PyFactor cl' ids W') = Some t' -> sim sol g (s_w t) (s_w t')).
  { clear E E' F t t'. intros cl cl' ids W W' t t' (kl & Ek & CL) E E'. cbn [pystep] in E, E'. destruct (py_factor rob (s_w s) cl ids W) as [u|] eqn:P; [|discriminate]. destruct (py_factor rob (s_w s') cl' ids W') as [u'|] eqn:P'; [|discriminate].
    injection E as <-. injection E' as <-. cbn [with_world s_w]. destruct (get_nodes (s_w s) ids) as [ls|] eqn:Gl. 2:{ unfold py_factor in P. rewrite Gl in P. discriminate. }
    apply (sim_factor sol g (s_w s) (s_w s') rob cl cl' ids W W' u u' ls); auto. { intros Q. apply (X Q). }
    replace (map kind_of (map (fun l => nst (n_data (nd (s_w s) l))) ls)) with kl; auto. pose proof (kinds_at _ _ _ _ _ T Gl) as K. rewrite <- Ek in K. clear - K.
    revert K. generalize (map kind_of (map (fun l => nst (n_data (nd (s_w s) l))) ls)). induction kl as [|k kl IH]; intros [|q r] K; try discriminate; auto. cbn in K. injection K as -> K. f_equal. auto. }
  destruct c, c'; cbn [framed] in F; try contradiction; cbn [typed1] in Ty.
  - destruct F as [-> M]. cbn [pycall_op pystep] in E, E'. destruct (py_node (s_w s) m v) as [u|] eqn:P; [|discriminate]. destruct (py_node (s_w s') m v0) as [u'|] eqn:P'; [|discriminate].
    injection E as <-. injection E' as <-. cbn [with_world s_w]. exact (sim_node sol g (s_w s) (s_w s') m v v0 u u' G S M P P').
  - destruct F as (M & -> & Tu & P). cbn [pycall_op] in E, E'. eapply FAC; [|exact E|exact E']. exists [KP2]. split; [cbn; rewrite Ty; reflexivity|]. apply class_pose2d; auto.
  - destruct F as (-> & -> & -> & -> & -> & U & P). destruct Ty as (N & T1 & T2). cbn [pycall_op] in E, E'. destruct (idO <? idT)%nat; (eapply FAC; [|exact E|exact E']; exists [KP2; KP2]; split; [cbn; rewrite T1, T2; reflexivity|]; apply class_2poses2d; auto).
  - destruct F as (-> & -> & -> & Tu & P). destruct Ty as (N & T1 & T2). cbn [pycall_op] in E, E'. destruct (idO <? idT)%nat; (eapply FAC; [|exact E|exact E']; exists [KP2; KP2]; split; [cbn; rewrite T1, T2; reflexivity|]; apply class_odom; auto).
  - destruct F as (-> & -> & -> & -> & -> & -> & P). destruct Ty as (T1 & T2). cbn [pycall_op] in E, E'. destruct (idP <? idL)%nat.
    + eapply FAC; [|exact E|exact E']. exists (ord2 false KP2 KL2). split; [cbn; rewrite T1, T2; reflexivity|]. apply class_landmark2d; auto.
    + eapply FAC; [|exact E|exact E']. exists (ord2 true KP2 KL2). split; [cbn; rewrite T1, T2; reflexivity|]. apply class_landmark2d; auto.
  - destruct F as (-> & -> & -> & -> & ->). destruct (X eq_refl) as [Ex _]. cbn [pycall_op pystep] in E, E'.
    assert (NS : m = GN -> forall b, build_problem false s = Some b -> nonsingular (g_stateDim (w_graph (s_w s))) (s_L b)) by (intros ->; exact H).
    destruct (solve_sim lin g m maxIters lambda tol s s' Ex G G' S NS) as (u & u' & Eu & Eu' & SS). rewrite E in Eu. rewrite E' in Eu'. injection Eu as <-. injection Eu' as <-. apply (ss_sim _ _ _ SS).
  - subst. cbn [pycall_op pystep] in E, E'. injection E as <-. injection E' as <-. cbn [with_world s_w]. apply (sim_chi2_call sol g); auto.
Qed.
Lemma run_sim sol lin rob g : (sol = true -> exact lin /\ rob <> RANSAC) -> forall cs cs' ks fs s s', Forall2 (framed sol g) cs cs' -> typed ks cs -> tracks ks fs (s_w s) -> (exists fs', tracks ks fs' (s_w s')) ->
  good (s_w s) -> good (s_w s') -> sim sol g (s_w s) (s_w s') -> (sol = true -> posed lin rob s cs) ->
  exists t t', pycalls lin rob s cs = Some t /\ pycalls lin rob s' cs' = Some t' /\ good (s_w t) /\ good (s_w t') /\ sim sol g (s_w t) (s_w t').
Proof.
  intros X. unfold pycalls. induction cs as [|c cs IH]; intros cs' ks fs s s' F Ty T T' G G' S P; inversion F as [|? c' ? cs1 F1 F2]; subst; cbn [map pyrun].
  - exists s, s'. auto.
  - destruct Ty as [Ty1 Ty2]. destruct (framed_typed _ _ _ _ _ F1 Ty1) as [Ty1' EK]. destruct T' as [fs' T'].
    destruct (pystep_good lin rob s (pycall_op c) G (typed_clean _ _ _ _ T Ty1)) as (t & E & Gt). destruct (pystep_good lin rob s' (pycall_op c') G' (typed_clean _ _ _ _ T' Ty1')) as (t' & E' & Gt').
    rewrite E, E'.
    assert (St : sim sol g (s_w t) (s_w t')).
    { eapply call_sim; [exact X|exact G|exact G'|exact T|exact S|exact Ty1|exact F1| |exact E|exact E'].
      destruct c; auto. destruct m; auto. destruct sol. 2:{ destruct c'; cbn in F1; try contradiction. destruct F1; discriminate. }
      destruct (P eq_refl) as [P1 _]. exact P1. }
    eapply IH; [exact F2|exact Ty2|exact (track_call lin rob ks fs s c t G T Ty1 E)| |exact Gt|exact Gt'|exact St|].
    + rewrite <- EK. exists (fs' ++ facts c'). exact (track_call lin rob ks fs' s' c' t' G' T' Ty1' E').
    + intros Q. specialize (P Q). cbn [posed] in P. rewrite E in P. apply P.
Qed.
Lemma sim_new sol g : sim sol g world_new world_new.
Proof. constructor; auto. intros l H. cbn in H. lia. intros l []. Qed.
Lemma sim_estimated sol g w w' : good w -> sim sol g w w' -> Forall2 (moved g) (get_estimated_state w) (get_estimated_state w').
Proof.
  intros G S. unfold get_estimated_state. rewrite (sm_graph _ _ _ _ S).
  assert (V : forall l, In l (g_nodes (w_graph w)) -> (l < length (w_nodes w))%nat). { intros l I. destruct (In_nth_error _ _ I) as [k K]. apply (gd_ids _ G k l K). }
  induction (g_nodes (w_graph w)) as [|l ls IH]; cbn; constructor. apply (sm_node _ _ _ _ S). apply V; cbn; auto. apply IH. intros; apply V; cbn; auto.
Qed.
Lemma sim_array sol g w w' : sim sol g w w' -> get_chi2_array w' = get_chi2_array w.
Proof. intros S. unfold get_chi2_array. rewrite (sm_graph _ _ _ _ S). apply map_ext_in. intros l I. apply (sm_fac _ _ _ _ S l I). Qed.
Lemma sessions_sim sol lin rob g cs cs' : (sol = true -> exact lin /\ rob <> RANSAC) -> typed [] cs -> Forall2 (framed sol g) cs cs' -> (sol = true -> posed lin rob (solver_new world_new) cs) ->
  exists s s', pycalls lin rob (solver_new world_new) cs = Some s /\ pycalls lin rob (solver_new world_new) cs' = Some s' /\
    Forall2 (moved g) (get_estimated_state (s_w s)) (get_estimated_state (s_w s')) /\ get_chi2_array (s_w s') = get_chi2_array (s_w s) /\ forall e, snd (chi2 e (s_w s')) = snd (chi2 e (s_w s)).
Proof.
  intros X T F P. destruct (run_sim sol lin rob g X cs cs' [] [] (solver_new world_new) (solver_new world_new) F T tracks_new (ex_intro _ [] tracks_new) good_new good_new (sim_new sol g) P) as (s & s' & E & E' & G & G' & S).
  exists s, s'. split; auto. split; auto. split; [eapply sim_estimated; eauto|]. split; [eapply sim_array; eauto|]. intros e. apply (sim_chi2_call sol g); auto.
Qed.
