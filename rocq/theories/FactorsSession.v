(** Programs through FGraphPy with the factor classes of the library. *)
Require Import Reals List Arith Lia Lra Bool.
From Verif Require Import Lin SO3 Nodes NodesProofs Robust Graph GraphProofs Sums Solve SpecSolve SolveIndex SolveFrame SolveSums SolveBuild SolveProofs Session SessionProofs.
From Verif Require Import Factors SpecFactors FactorsPlanar.
Import ListNotations.
Local Open Scope nat_scope.
Local Arguments nd : simpl never.
Local Arguments fa : simpl never.

Lemma kind_same a b : same_kind a b = true <-> kind_of a = kind_of b.
Proof. destruct a, b; cbn; split; congruence. Qed.

Definition facts (c : pycall) : list (fclass * list nat * (nat -> nat -> R)) :=
  match call_factor c with Some f => [f] | None => [] end.
Record tracks (ks : list kind) (fs : list (fclass * list nat * (nat -> nat -> R))) (w : world) : Prop := {
  tk_len : length (g_nodes (w_graph w)) = length ks;
  tk_kind : forall i l, nth_error (g_nodes (w_graph w)) i = Some l -> nth_error ks i = Some (kind_of (nst (n_data (nd w l))));
  tk_fac : g_factors (w_graph w) = seq 0 (length fs);
  tk_flen : length (w_factors w) = length fs;
  tk_cls : forall k cl ids W, nth_error fs k = Some (cl, ids, W) -> f_dim (fa w k) = fc_dim cl /\ f_res (fa w k) = fc_res cl /\
    f_info (fa w k) = W /\ get_nodes w ids = Some (f_nodes (fa w k));
  tk_blind : forall k cl ids W, nth_error fs k = Some (cl, ids, W) -> blind cl }.

Lemma call_blind c cl ids W : call_factor c = Some (cl, ids, W) -> blind cl.
Proof.
  unfold call_factor. destruct c; cbn [pycall_op]; try discriminate; try (destruct (_ <? _)); intros E; injection E as <- <- <-;
  auto using blind_pose2d, blind_2poses2d, blind_odom, blind_pose3d, blind_2poses3d, blind_landmark2d, blind_landmark3d, blind_plane4d, blind_point2plane.
Qed.
Lemma get_nodes_more w w' x ids ls : g_nodes (w_graph w') = g_nodes (w_graph w) ++ x -> get_nodes w ids = Some ls -> get_nodes w' ids = Some ls.
Proof.
  intros G. revert ls. induction ids as [|i ids IH]; intros ls E; cbn in *; auto.
  destruct (get_node w i) as [l|] eqn:Gi; [|discriminate]. destruct (get_nodes w ids) as [r|]; [|discriminate].
  unfold get_node in *. rewrite G, nth_error_app1 by (apply nth_error_Some; congruence). rewrite Gi, (IH r eq_refl). auto.
Qed.

(** typed calls are clean *)
Lemma node_at ks fs w i k : tracks ks fs w -> nth_error ks i = Some k ->
  i < number_nodes w /\ exists l, get_node w i = Some l /\ kind_of (nst (n_data (nd w l))) = k.
Proof.
  intros T E. assert (L : i < length ks) by (apply nth_error_Some; congruence). unfold number_nodes. rewrite (tk_len _ _ _ T). split; auto.
  unfold get_node. destruct (nth_error (g_nodes (w_graph w)) i) as [l|] eqn:G.
  - exists l. split; auto. rewrite (tk_kind _ _ _ T i l G) in E. congruence.
  - apply nth_error_None in G. rewrite (tk_len _ _ _ T) in G. lia.
Qed.
Lemma unary_ok w cl i W : fc_init cl = None -> i < number_nodes (s_w w) -> pyclean1 w (PyFactor cl [i] W).
Proof. intros E L. cbn. rewrite E. repeat constructor; auto. Qed.
Lemma binary_ok s cl i j W k1 k2 :
  i <> j -> i < number_nodes (s_w s) -> j < number_nodes (s_w s) ->
  (exists l, get_node (s_w s) i = Some l /\ kind_of (nst (n_data (nd (s_w s) l))) = k1) ->
  (exists l, get_node (s_w s) j = Some l /\ kind_of (nst (n_data (nd (s_w s) l))) = k2) ->
  match fc_init cl with None => True | Some (p, g) => p < 2 /\
    forall v1 v2, kind_of v1 = k1 -> kind_of v2 = k2 -> kind_of (g [v1; v2]) = if p =? 0 then k1 else k2 end ->
  pyclean1 s (PyFactor cl [i; j] W).
Proof.
  intros N Li Lj (l1 & E1 & K1) (l2 & E2 & K2) H. cbn [pyclean1].
  split. { repeat constructor; auto. } split. { repeat constructor; cbn; intuition. }
  destruct (fc_init cl) as [[p g]|]; auto. destruct H as [Lp H]. split; auto.
  intros ls G. cbn [get_nodes] in G. rewrite E1, E2 in G. injection G as <-. intros n Hn. cbn [map].
  apply kind_same. rewrite (H _ _ K1 K2). destruct p as [|[|p]]; cbn in Hn |- *; try lia; congruence.
Qed.
Ltac kinds1 := repeat match goal with
  | H : kind_of ?v = _ |- _ => destruct v; cbn in H; try discriminate; clear H end.
Lemma typed_clean ks fs s c : tracks ks fs (s_w s) -> typed1 ks c -> pyclean1 s (pycall_op c).
Proof.
  intros T H. destruct c; cbn [typed1 pycall_op] in *; auto.
  - apply unary_ok; auto. eapply node_at; eauto.
  - destruct H as (N & H1 & H2). destruct (node_at _ _ _ _ _ T H1) as [L1 X1]. destruct (node_at _ _ _ _ _ T H2) as [L2 X2].
    destruct (Nat.ltb_spec idO idT); (eapply binary_ok; eauto; destruct updateNodeTarget; cbn; auto; split; [lia|]; intros v1 v2 K1 K2; kinds1; reflexivity).
  - destruct H as (N & H1 & H2). destruct (node_at _ _ _ _ _ T H1) as [L1 X1]. destruct (node_at _ _ _ _ _ T H2) as [L2 X2].
    destruct (Nat.ltb_spec idO idT); (eapply binary_ok; eauto; cbn; auto; split; [lia|]; intros v1 v2 K1 K2; kinds1; reflexivity).
  - apply unary_ok; auto. eapply node_at; eauto.
  - destruct H as (N & H1 & H2). destruct (node_at _ _ _ _ _ T H1) as [L1 X1]. destruct (node_at _ _ _ _ _ T H2) as [L2 X2].
    destruct (Nat.ltb_spec idO idT); (eapply binary_ok; eauto; destruct updateNodeTarget; cbn; auto; split; [lia|]; intros v1 v2 K1 K2; kinds1; reflexivity).
  - destruct H as (H1 & H2). destruct (node_at _ _ _ _ _ T H1) as [L1 X1]. destruct (node_at _ _ _ _ _ T H2) as [L2 X2].
    assert (N : idP <> idL) by congruence.
    destruct (Nat.ltb_spec idP idL); (eapply binary_ok; eauto; exact I).
  - destruct H as (H1 & H2). destruct (node_at _ _ _ _ _ T H1) as [L1 X1]. destruct (node_at _ _ _ _ _ T H2) as [L2 X2].
    assert (N : idP <> idL) by congruence.
    destruct (Nat.ltb_spec idP idL); (eapply binary_ok; eauto; destruct initializeLandmark; cbn; auto; split; [lia|]; intros v1 v2 K1 K2; kinds1; reflexivity).
  - destruct H as (H1 & H2). destruct (node_at _ _ _ _ _ T H1) as [L1 X1]. destruct (node_at _ _ _ _ _ T H2) as [L2 X2].
    assert (N : idP <> idL) by congruence.
    destruct (Nat.ltb_spec idP idL); (eapply binary_ok; eauto; exact I).
  - apply unary_ok; auto. eapply node_at; eauto.
Qed.

(** the tracking invariant *)
Lemma tracks_skel ks fs w w' : good w -> tracks ks fs w -> skel w w' -> kinds_kept w w' -> tracks ks fs w'.
Proof.
  intros D [T1 T2 T3 T4 T5 T6] SK K. pose proof (sk_graph _ _ SK) as G. constructor; auto; rewrite ?G; auto.
  - intros i l E. rewrite (T2 i l E). f_equal. apply kind_same. destruct (gd_ids _ D i l E) as [L _]. apply K; auto. apply (gd_kind _ D l L).
  - rewrite (sk_flen _ _ SK). auto.
  - intros k cl ids W E. destruct (T5 k cl ids W E) as (A & B & C & F). destruct (sk_factor _ _ SK k) as (-> & -> & -> & _ & -> & _).
    repeat split; auto. apply (get_nodes_more w w' []); auto. rewrite G, app_nil_r. auto.
Qed.
Lemma track_node ks fs s m v s' : good (s_w s) -> tracks ks fs (s_w s) -> pystep (fun _ _ b => b) QUADRATIC s (PyNode m v) = Some s' -> tracks (ks ++ [kind_of v]) fs (s_w s').
Proof.
  intros D T H. cbn [pystep] in H. unfold py_node in H. cbn [grun gstep] in H.
  set (w1 := alloc_node (s_w s) (node_ctor m v)) in *. destruct (add_node w1 (length (w_nodes (s_w s)))) as [[w2 k]|] eqn:E; [|discriminate].
  cbn in H. injection H as <-. cbn [with_world s_w]. destruct (add_node_inv _ _ _ _ E) as (n & En & Ek & Nn & Nf & Gn & Gf & _).
  destruct T as [T1 T2 T3 T4 T5 T6].
  assert (ND : forall l, n_data (nd w2 l) = if l =? length (w_nodes (s_w s)) then n_data (node_ctor m v) else n_data (nd (s_w s) l)).
  { intros l. assert (X : n_data (nd w2 l) = n_data (nd w1 l)). { unfold nd. rewrite Nn, nth_upd. destruct (andb _ _); reflexivity. }
    rewrite X. unfold w1, alloc_node. rewrite nd_alloc. destruct (l =? _); reflexivity. }
  constructor; auto.
  - rewrite Gn. unfold w1; cbn. rewrite !app_length. cbn. lia.
  - intros i l I. rewrite Gn in I. unfold w1 in I; cbn in I. rewrite nth_error_snoc in I. destruct (Nat.ltb_spec i (length (g_nodes (w_graph (s_w s))))) as [L|L].
    + rewrite nth_error_app1 by lia. rewrite (T2 i l I), ND. destruct (gd_ids _ D i l I) as [Ll _]. destruct (Nat.eqb_spec l (length (w_nodes (s_w s)))); [lia|]. auto.
    + destruct (Nat.eqb_spec i (length (g_nodes (w_graph (s_w s))))); [|discriminate]. injection I as <-. subst i. rewrite nth_error_app2, T1, Nat.sub_diag by lia.
      cbn. rewrite ND, Nat.eqb_refl. cbn. f_equal. apply kind_same. apply kind_init.
  - rewrite Gf. exact T3.
  - rewrite Nf. exact T4.
  - intros k' cl ids W I. destruct (T5 k' cl ids W I) as (A & B & C & F). assert (X : fa w2 k' = fa (s_w s) k') by (unfold fa; rewrite Nf; reflexivity).
    rewrite X. repeat split; auto. apply (get_nodes_more (s_w s) w2 [length (w_nodes (s_w s))]); auto.
Qed.
Lemma track_factor ks fs s rob cl ids W s' : good (s_w s) -> tracks ks fs (s_w s) -> blind cl -> pyclean1 s (PyFactor cl ids W) ->
  pystep (fun _ _ b => b) rob s (PyFactor cl ids W) = Some s' -> tracks ks (fs ++ [(cl, ids, W)]) (s_w s').
Proof.
  intros D T B C H. cbn [pystep] in H. unfold py_factor in H. destruct (get_nodes (s_w s) ids) as [ls|] eqn:G; [|discriminate].
  assert (X : forall w1 s', w_graph w1 = w_graph (s_w s) -> w_factors w1 = w_factors (s_w s) ->
     (forall i l, nth_error (g_nodes (w_graph (s_w s))) i = Some l -> kind_of (nst (n_data (nd w1 l))) = kind_of (nst (n_data (nd (s_w s) l)))) ->
     option_map (with_world s) (grun w1 [ONewFactor (fc_dim cl) (fc_alldim cl) ls (fc_res cl) (fc_jac cl) W rob; OAddFactor (length (w_factors (s_w s)))]) = Some s' ->
     tracks ks (fs ++ [(cl, ids, W)]) (s_w s')).
  { clear H s'. intros w1 s' G1 F1 K1 H. cbn [grun] in H.
    destruct (gstep w1 _) as [w2|] eqn:E2 in H; [|discriminate]. cbn [gstep] in E2. apply alloc_factor_inv in E2. destruct E2 as [_ E2].
    cbn [gstep] in H. destruct (add_factor w2 (length (w_factors (s_w s)))) as [[w3 k]|] eqn:E3; [|discriminate].
    cbn in H. injection H as <-. cbn [with_world s_w]. destruct (add_factor_inv _ _ _ _ E3) as (f & Ef & Ek & Nn & Nf & Gn & Gf & _).
    subst w2. cbn [w_factors w_nodes w_graph] in *. rewrite F1 in *. rewrite G1 in *.
    rewrite nth_error_app2, Nat.sub_diag in Ef by lia. cbn in Ef. injection Ef as <-. cbn [f_nodes factor_ctor] in Nn.
    destruct T as [T1 T2 T3 T4 T5 T6].
    assert (ND : forall l, n_data (nd w3 l) = n_data (nd w1 l)).
    { intros l. pose proof (nd_link ls (length (w_factors (s_w s))) w1 l (w_factors w1)) as Y.
      assert (Z : nd w3 l = nd (mkW (link_all ls (length (w_factors (s_w s))) (w_nodes w1)) (w_factors w1) (w_graph w1)) l) by (unfold nd; rewrite Nn; reflexivity).
      rewrite Z, Y. destruct (l <? _); reflexivity. }
    assert (FA : forall j, j < length (w_factors (s_w s)) -> fa w3 j = fa (s_w s) j).
    { intros j J. unfold fa. rewrite Nf, nth_upd. destruct (Nat.eqb_spec j (length (w_factors (s_w s)))); [lia|]. cbn [andb]. apply app_nth1; auto. }
    assert (FN : fa w3 (length (w_factors (s_w s))) = factor_set_id k (factor_ctor (fc_dim cl) (fc_alldim cl) ls (fc_res cl) (fc_jac cl) W rob)).
    { unfold fa. rewrite Nf, nth_upd, Nat.eqb_refl, app_length. cbn [andb length]. destruct (Nat.ltb_spec (length (w_factors (s_w s))) (length (w_factors (s_w s)) + 1)); [|lia].
      rewrite app_nth2, Nat.sub_diag by lia. reflexivity. }
    constructor.
    - rewrite Gn. exact T1.
    - intros i l I. rewrite Gn in I. rewrite (T2 i l I), ND. f_equal. symmetry. eapply K1; eauto.
    - rewrite Gf, T3, T4, app_length. cbn [length]. rewrite Nat.add_1_r, seq_S. reflexivity.
    - rewrite Nf, upd_length, !app_length, T4. reflexivity.
    - intros k' cl' ids' W' I. rewrite nth_error_snoc in I. destruct (Nat.ltb_spec k' (length fs)) as [L|L].
      + rewrite FA by lia. destruct (T5 k' cl' ids' W' I) as (P1 & P2 & P3 & P4). repeat split; auto.
        apply (get_nodes_more (s_w s) w3 []); auto. rewrite Gn, app_nil_r. auto.
      + destruct (Nat.eqb_spec k' (length fs)); [|discriminate]. injection I as <- <- <-. subst k'. rewrite <- T4, FN. cbn. repeat split; auto.
        apply (get_nodes_more (s_w s) w3 []); auto. rewrite Gn, app_nil_r. auto.
    - intros k' cl' ids' W' I. rewrite nth_error_snoc in I. destruct (k' <? length fs); [eauto|]. destruct (k' =? length fs); [|discriminate]. injection I as <- <- <-. exact B. }
  destruct (fc_init cl) as [[p g]|] eqn:EI.
  - destruct (nth_error ls p) as [n|] eqn:En; [|discriminate]. cbn [app] in H. cbn [grun] in H.
    destruct (gstep (s_w s) (OSetState n (g (map (fun l => nst (n_data (nd (s_w s) l))) ls)))) as [w1|] eqn:E1; [|discriminate].
    eapply X with (w1 := w1); [| | |exact H]; cbn [gstep] in E1; apply set_state_inv in E1; destruct E1 as (x & d & Ex & Ed & ->); auto.
    intros i l _. cbn [pyclean1] in C. rewrite EI in C. destruct C as (_ & _ & _ & C). specialize (C ls G n En).
    apply nd_nth in Ex as Ex'. subst x. unfold node_set_state in Ed. rewrite C in Ed. injection Ed as <-.
    unfold nd at 1; cbn [w_nodes]. rewrite nth_upd. fold (nd (s_w s) l). destruct (Nat.eqb_spec l n) as [->|]; cbn [andb]; auto. destruct (n <? _); auto.
    cbn. symmetry. apply kind_same. eapply kind_trans; [exact C|apply kind_set].
  - eapply X with (w1 := s_w s); eauto.
Qed.
Lemma track_call lin rob ks fs s c s' : good (s_w s) -> tracks ks fs (s_w s) -> typed1 ks c -> pystep lin rob s (pycall_op c) = Some s' ->
  tracks (kinds_after ks c) (fs ++ facts c) (s_w s').
Proof.
  intros D T H E. pose proof (typed_clean _ _ _ _ T H) as C.
  assert (B : forall cl ids W, call_factor c = Some (cl, ids, W) -> tracks ks (fs ++ [(cl, ids, W)]) (s_w s')).
  { intros cl ids W F. pose proof (call_blind c cl ids W F). unfold call_factor in F. destruct (pycall_op c) eqn:O; try discriminate. injection F as -> -> ->. eapply track_factor; eauto. }
  unfold facts. destruct (call_factor c) as [[[cl ids] W]|] eqn:F.
  - replace (kinds_after ks c) with ks; auto. destruct c; try reflexivity. discriminate.
  - rewrite app_nil_r. destruct c; cbn [pycall_op kinds_after] in *;
      try (unfold call_factor in F; cbn [pycall_op] in F; try discriminate; destruct (_ <? _) in F; discriminate).
    + eapply track_node; eauto.
    + cbn [pystep] in E. destruct (solve_frame _ _ _ _ _ _ _ E) as (SK & _ & K). eapply tracks_skel; eauto.
    + cbn [pystep] in E. injection E as <-. cbn [with_world s_w]. destruct (chi2_fst (s_w s) evaluate) as [SK N]. eapply tracks_skel; eauto. apply kk_refl; auto.
Qed.
Lemma typed_run lin rob cs : forall ks fs s, good (s_w s) -> tracks ks fs (s_w s) -> typed ks cs ->
  exists s', pycalls lin rob s cs = Some s' /\ good (s_w s') /\ tracks (fold_left kinds_after cs ks) (fs ++ flat_map facts cs) (s_w s').
Proof.
  unfold pycalls. induction cs as [|c cs IH]; intros ks fs s D T H; cbn [map pyrun flat_map fold_left].
  - exists s. rewrite app_nil_r. auto.
  - destruct H as [H1 H2]. destruct (pystep_good lin rob s (pycall_op c) D (typed_clean _ _ _ _ T H1)) as (s1 & E & D1). rewrite E.
    rewrite app_assoc. apply IH; auto. eapply track_call; [exact D | exact T | exact H1 | exact E].
Qed.
Lemma tracks_new : tracks [] [] world_new.
Proof. constructor; auto; intros [|k]; discriminate. Qed.

Lemma lsum_seq_list {A} (f : nat -> R) (g : A -> R) (l : list A) : forall b, (forall k x, nth_error l k = Some x -> f (b + k) = g x) -> lsum (seq b (length l)) f = lsum l g.
Proof.
  induction l as [|a l IH]; intros b H; [reflexivity|]. cbn [length seq].
  assert (E0 : f b = g a). { rewrite <- (H 0 a eq_refl), Nat.add_0_r. auto. }
  assert (E1 : lsum (seq (S b) (length l)) f = lsum l g). { apply IH. intros k x E. rewrite <- (H (S k) x E). f_equal. lia. }
  unfold lsum in *. cbn. rewrite E0, E1. reflexivity.
Qed.
Lemma get_nodes_states w ids ls : get_nodes w ids = Some ls -> map (fun l => nst (n_data (nd w l))) ls = map (state_of w) ids.
Proof.
  revert ls. induction ids as [|i ids IH]; intros ls E; cbn in E. { injection E as <-. reflexivity. }
  destruct (get_node w i) as [l|] eqn:G; [|discriminate]. destruct (get_nodes w ids) as [r|]; [|discriminate]. injection E as <-.
  cbn. rewrite (IH r eq_refl). unfold state_of. rewrite G. reflexivity.
Qed.
Lemma tracks_chi2 ks cs w : tracks ks (flat_map facts cs) w -> chi2_of w = lsum cs (call_chi2 (state_of w)).
Proof.
  intros T. unfold chi2_of. rewrite (tk_fac _ _ _ T).
  rewrite (lsum_seq_list (fchi2 w) (fun '(cl, ids, W) => 1 / 2 * quad (fc_dim cl) W (fc_res cl (map (state_of w) ids)) (fc_res cl (map (state_of w) ids)))%R).
  - clear T. induction cs as [|c cs IH]; auto. cbn [flat_map]. rewrite lsum_app, IH, lsum_cons. f_equal.
    unfold facts, call_chi2. destruct (call_factor c) as [[[cl ids] W]|]; [rewrite lsum_cons, lsum_nil; ring|reflexivity].
  - intros k [[cl ids] W] E. cbn [Nat.add]. destruct (tk_cls _ _ _ T k cl ids W E) as (A & B & C & F).
    unfold fchi2, fdim, res_at, states_of. rewrite A, B, C, (get_nodes_states _ _ _ F). reflexivity.
Qed.
Lemma tracks_wrap ks fs w : tracks ks fs w -> wrap_ok w.
Proof.
  intros T. right. intros l I. rewrite (tk_fac _ _ _ T) in I. apply in_seq in I.
  destruct (nth_error fs l) as [[[cl ids] W]|] eqn:E. 2:{ apply nth_error_None in E. lia. }
  destruct (tk_cls _ _ _ T l cl ids W E) as (_ & B & _). pose proof (tk_blind _ _ _ T l cl ids W E) as H.
  intros vs vs' V i. rewrite B. apply H; auto.
Qed.
