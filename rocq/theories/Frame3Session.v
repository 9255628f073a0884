(** 3D sessions without solving in two coordinate frames (C82). *)
Require Import Reals List Arith Lia Lra Bool.
From Verif Require Import Lin LinFacts SpecGeom SO3 SE3 SO3Exp SE3Alg Nodes NodesProofs Robust Graph GraphProofs Sums Solve SpecSolve SolveIndex SolveFrame SolveSums SolveBuild SolveProofs Session SessionProofs.
From Verif Require Import Factors SpecFactors FactorsPlanar FactorsSession SpecFrame3 Frame3Factors PropReadback PropFrame PropSolvable.
Import ListNotations.
Local Open Scope R_scope.
Local Arguments nd : simpl never.
Local Arguments fa : simpl never.

(** ** one factor *)
Lemma moved3_kind g v v' : moved3 g v v' -> kind_of v' = kind_of v.
Proof. destruct v, v'; cbn; try contradiction; reflexivity. Qed.
Lemma lvec_of l l' : l = l' -> lvec l = lvec l'. Proof. congruence. Qed.
Lemma turned_quad g W W' xi : turned6 g W W' -> quad 6 W' (lvec (l6 (lever g xi))) (lvec (l6 (lever g xi))) = quad 6 W (lvec (l6 xi)) (lvec (l6 xi)).
Proof. intros T. exact (T (v6w xi) (v6v xi)). Qed.
Lemma framed3_ids g c c' cl ids W : framed3 g c c' -> call_factor c = Some (cl, ids, W) -> exists cl' W', call_factor c' = Some (cl', ids, W').
Proof.
  unfold call_factor. destruct c, c'; cbn [framed3]; try contradiction; cbn [pycall_op]; try discriminate.
  - intros (_ & _ & -> & _) E. injection E as <- <- <-. eauto.
  - intros (_ & -> & -> & -> & _ & ->). destruct (_ <? _)%nat; intros E; injection E as <- <- <-; eauto.
  - intros (-> & -> & -> & -> & ->). destruct (_ <? _)%nat; intros E; injection E as <- <- <-; eauto.
  - intros (-> & -> & -> & ->). destruct (_ <? _)%nat; intros E; injection E as <- <- <-; eauto.
  - intros (-> & -> & -> & -> & ->) E. injection E as <- <- <-. eauto.
Qed.
Lemma quad_null n W x y : (forall i, x i = 0) -> quad n W x y = 0.
Proof. intros H. unfold quad. apply sumn_zero. intros i _. apply sumn_zero. intros j _. rewrite H. ring. Qed.
Ltac nulls := f_equal; rewrite !quad_null by (intros; reflexivity); reflexivity.
Lemma frame_call g st st' c c' : rigid g -> framed3 g c c' -> (forall cl ids W i, call_factor c = Some (cl, ids, W) -> In i ids -> moved3 g (st i) (st' i)) ->
  small_error g st c -> call_chi2 st' c' = call_chi2 st c.
Proof.
  intros Hg F M Sm. unfold call_chi2, call_factor in *. destruct c, c'; cbn [framed3] in F; try contradiction; cbn [pycall_op] in *; auto.
  - destruct F as (Ho & -> & -> & T). specialize (M _ _ _ id eq_refl (or_introl eq_refl)). cbn [map c_pose3d fc_dim fc_res]. cbn [small_error] in Sm. destruct (st id), (st' id); cbn in M; try contradiction; try nulls.
    destruct M as [HX ->]. rewrite (frame_pose3d g obs T0 Hg Ho HX Sm). f_equal. apply turned_quad; auto.
  - destruct F as (Ho & -> & -> & -> & T & ->). cbn [small_error] in Sm.
    assert (X : forall i j init, moved3 g (st i) (st' i) -> moved3 g (st j) (st' j) ->
       match st i, st j with P3 A, P3 B => small_turn g (m3mul (m3mul (mR A) (mR obs)) (m3tr (mR B))) | _, _ => True end ->
       1 / 2 * quad 6 info0 (fc_res (c_2poses3d obs init) (map st' [i; j])) (fc_res (c_2poses3d obs init) (map st' [i; j])) =
       1 / 2 * quad 6 info (fc_res (c_2poses3d obs init) (map st [i; j])) (fc_res (c_2poses3d obs init) (map st [i; j]))).
    { clear M Sm. intros i j init M1 M2 Sm. cbn [map c_2poses3d fc_res]. destruct (st i), (st' i); cbn in M1; try contradiction; try nulls. destruct (st j), (st' j); cbn in M2; try contradiction; try nulls.
      destruct M1 as [H1 ->], M2 as [H2 ->]. rewrite (frame_2poses3d g obs _ _ Hg Ho H1 H2 Sm). f_equal. apply turned_quad; auto. }
    destruct (idO <? idT)%nat eqn:L.
    + apply Nat.ltb_lt in L. rewrite Nat.min_l, Nat.max_r in Sm by lia. apply X; auto; eapply M; try reflexivity; cbn; auto.
    + apply Nat.ltb_ge in L. rewrite Nat.min_r, Nat.max_l in Sm by lia. apply X; auto; eapply M; try reflexivity; cbn; auto.
  - destruct F as (-> & -> & -> & -> & ->). destruct (idP <? idL)%nat.
    + pose proof (M _ _ _ idP eq_refl (or_introl eq_refl)) as M1. pose proof (M _ _ _ idL eq_refl (or_intror (or_introl eq_refl))) as M2. cbn [map c_landmark3d fc_dim fc_res].
      destruct (st idP), (st' idP); cbn in M1; try contradiction; try nulls. destruct (st idL), (st' idL); cbn in M2; try contradiction; try nulls. destruct M1 as [HT ->]. subst. rewrite (frame_landmark3d g obs _ _ Hg HT). reflexivity.
    + pose proof (M _ _ _ idL eq_refl (or_introl eq_refl)) as M2. pose proof (M _ _ _ idP eq_refl (or_intror (or_introl eq_refl))) as M1. cbn [map c_landmark3d fc_dim fc_res].
      destruct (st idL), (st' idL); cbn in M2; try contradiction; try nulls. destruct (st idP), (st' idP); cbn in M1; try contradiction; try nulls. destruct M1 as [HT ->]. subst. rewrite (frame_landmark3d g obs _ _ Hg HT). reflexivity.
  - destruct F as (-> & -> & -> & ->). destruct (idP <? idL)%nat.
    + pose proof (M _ _ _ idP eq_refl (or_introl eq_refl)) as M1. pose proof (M _ _ _ idL eq_refl (or_intror (or_introl eq_refl))) as M2. cbn [map c_plane4d fc_dim fc_res].
      destruct (st idP), (st' idP); cbn in M1; try contradiction; try nulls. destruct (st idL), (st' idL); cbn in M2; try contradiction; try nulls. destruct M1 as [HT ->]. destruct M2 as (_ & E1 & E2). rewrite (frame_plane4d g _ _ _ _ Hg HT E1 E2). reflexivity.
    + pose proof (M _ _ _ idL eq_refl (or_introl eq_refl)) as M2. pose proof (M _ _ _ idP eq_refl (or_intror (or_introl eq_refl))) as M1. cbn [map c_plane4d fc_dim fc_res].
      destruct (st idL), (st' idL); cbn in M2; try contradiction; try nulls. destruct (st idP), (st' idP); cbn in M1; try contradiction; try nulls. destruct M1 as [HT ->]. destruct M2 as (_ & E1 & E2). rewrite (frame_plane4d g _ _ _ _ Hg HT E1 E2). reflexivity.
  - destruct F as (-> & -> & -> & -> & ->). pose proof (M _ _ _ id eq_refl (or_introl eq_refl)) as M1. cbn [map c_point2plane fc_dim fc_res]. destruct (st id), (st' id); cbn in M1; try contradiction; try nulls.
    destruct M1 as [HT ->]. rewrite (frame_point2plane g _ _ _ _ Hg HT). reflexivity.
Qed.

(** ** sessions *)
Lemma typed_pyclean lin rob cs : forall ks fs s, good (s_w s) -> tracks ks fs (s_w s) -> typed ks cs -> pyclean lin rob s (map pycall_op cs).
Proof.
  induction cs as [|c cs IH]; intros ks fs s D T H; cbn; auto. destruct H as [H1 H2]. pose proof (typed_clean _ _ _ _ T H1) as C. split; auto. intros s' E.
  destruct (pystep_good lin rob s (pycall_op c) D C) as (s1 & E1 & D1). rewrite E in E1. injection E1 as <-. exact (IH _ _ s' D1 (track_call lin rob ks fs s c s' D T H1 E) H2).
Qed.
Lemma framed3_typed g ks c c' : framed3 g c c' -> typed1 ks c -> typed1 ks c' /\ kinds_after ks c' = kinds_after ks c.
Proof.
  destruct c, c'; cbn [framed3]; try contradiction; cbn [typed1 kinds_after].
  - intros (-> & M) T. rewrite (moved3_kind _ _ _ M). auto.
  - intros (_ & _ & -> & _). auto.
  - intros (_ & _ & -> & -> & _). auto.
  - intros (_ & -> & -> & _). auto.
  - intros (_ & -> & -> & _). auto.
  - intros (_ & _ & _ & -> & _). auto.
  - auto.
Qed.
Lemma framed3_typeds g cs : forall ks cs', Forall2 (framed3 g) cs cs' -> typed ks cs -> typed ks cs'.
Proof.
  induction cs as [|c cs IH]; intros ks cs' F T; inversion F as [|? c' ? cs1 F1 F2]; subst; cbn; auto. destruct T as [T1 T2]. destruct (framed3_typed _ _ _ _ F1 T1) as [T1' E]. split; auto. rewrite E. auto.
Qed.
Definition related (g : M4) (a b : option nval) : Prop := match a, b with Some v, Some v' => moved3 g v v' | None, None => True | _, _ => False end.
Definition aligned (g : M4) (x y : list nval) : Prop := forall i, related g (nth_error x i) (nth_error y i).
Lemma aligned_Forall2 g x : forall y, aligned g x y <-> Forall2 (moved3 g) x y.
Proof.
  induction x as [|a x IH]; intros y.
  - split; [|intros F; inversion F; intros [|i]; exact I]. destruct y as [|b y]; auto. intros H. destruct (H 0%nat).
  - split.
    + intros H. destruct y as [|b y]; [destruct (H 0%nat)|]. constructor; [exact (H 0%nat)|]. apply IH. intros i. exact (H (S i)).
    + intros F. inversion F as [|? b ? y' F1 F2]; subst. intros [|i]; [exact F1|]. exact (proj2 (IH y') F2 i).
Qed.
Lemma init_moved3 g v v' : rigid g -> moved3 g v v' -> moved3 g (node_init v) (node_init v').
Proof.
  intros (HQ & _) M. destruct v, v'; try contradiction; try exact M. destruct M as (U & E1 & E2). assert (U' : v3sqn (v4h p0) = 1) by (rewrite E1; unfold v3sqn; rewrite v3dot_app, <- m3app_mul, (rotation_linv _ HQ), m3app_id; exact U).
  assert (Z : forall p, v3sqn (v4h p) = 1 -> plane_normalize p = p). { intros [h l] H. unfold plane_normalize, v3normalize. cbn [v4h v4l] in *. rewrite H. destruct (Rltb 0 1) eqn:Q; [|reflexivity]. unfold v3norm. rewrite H, sqrt_1, Rinv_1. f_equal. lin. }
  change (moved3 g (PL (plane_normalize p)) (PL (plane_normalize p0))). rewrite !Z by auto. split; auto.
Qed.
Lemma moved3_init g obs vs vs' p : rigid g -> rigid obs -> map kind_of vs = [KP3; KP3] -> Forall2 (moved3 g) vs vs' -> forall q h, fc_init (c_2poses3d obs p) = Some (q, h) -> moved3 g (val_set (h vs)) (val_set (h vs')).
Proof.
  intros Hg Ho K M q h E. destruct p as [p|]; cbn in E; [|discriminate]. injection E as <- <-.
  destruct vs as [|a [|b [|? ?]]]; try discriminate. inversion M as [|? a' ? r Ma M2]; subst. inversion M2 as [|? b' ? r2 Mb M3]; subst. inversion M3; subst.
  destruct a, a'; cbn in Ma; try contradiction; try discriminate. destruct b, b'; cbn in Mb; try contradiction; try discriminate. destruct Ma as [Ha ->], Mb as [Hb ->].
  destruct (p =? 1)%nat; cbn; (split; [apply rigid_mul; auto | apply m4_assoc]).
Qed.

Lemma step_aligned lin rob g cs cs' s s' c c' t t' : rigid g -> typed [] (cs ++ [c]) -> typed [] (cs' ++ [c']) -> pycalls lin rob (solver_new world_new) cs = Some s -> pycalls lin rob (solver_new world_new) cs' = Some s' ->
  framed3 g c c' -> aligned g (get_estimated_state (s_w s)) (get_estimated_state (s_w s')) ->
  pystep lin rob s (pycall_op c) = Some t -> pystep lin rob s' (pycall_op c') = Some t' -> aligned g (get_estimated_state (s_w t)) (get_estimated_state (s_w t')).
Proof.
  intros Hg Ty Ty' E0 E0' F A E E'. apply typed_app in Ty. apply typed_app in Ty'. destruct Ty as [Ty [Ty1 _]], Ty' as [Ty' [Ty1' _]].
  pose proof (typed_pyclean lin rob cs [] [] (solver_new world_new) good_new tracks_new Ty) as C. pose proof (typed_pyclean lin rob cs' [] [] (solver_new world_new) good_new tracks_new Ty') as C'.
  destruct (typed_run lin rob cs [] [] (solver_new world_new) good_new tracks_new Ty) as (s0 & Q & D & T). rewrite E0 in Q. injection Q as <-.
  assert (NI : forall cl cl' ids W W' t t', fc_init cl = None -> fc_init cl' = None -> pystep lin rob s (PyFactor cl ids W) = Some t -> pystep lin rob s' (PyFactor cl' ids W') = Some t' -> aligned g (get_estimated_state (s_w t)) (get_estimated_state (s_w t'))).
  { clear E E' t t'. intros cl cl' ids W W' t t' N N' E E'. pose proof (C75_add_factor lin rob _ s cl ids W t C E0 E) as X. pose proof (C75_add_factor lin rob _ s' cl' ids W' t' C' E0' E') as X'. rewrite N in X. rewrite N' in X'. rewrite X, X'. exact A. }
  assert (IN : forall p obs ids W W' t t', rigid obs -> map (nth_error (fold_left kinds_after cs [])) ids = [Some KP3; Some KP3] -> pystep lin rob s (PyFactor (c_2poses3d obs p) ids W) = Some t -> pystep lin rob s' (PyFactor (c_2poses3d obs p) ids W') = Some t' -> aligned g (get_estimated_state (s_w t)) (get_estimated_state (s_w t'))).
  { clear E E' t t'. intros p obs ids W W' t t' Ho K E E'. pose proof (C75_add_factor lin rob _ s _ ids W t C E0 E) as X. pose proof (C75_add_factor lin rob _ s' _ ids W' t' C' E0' E') as X'.
    destruct (fc_init (c_2poses3d obs p)) as [[q h]|] eqn:I; [|rewrite X, X'; exact A]. destruct X as (i & vs & Ei & Ev & En & Eo). destruct X' as (i' & vs' & Ei' & Ev' & En' & Eo'). rewrite Ei in Ei'. injection Ei' as <-.
    assert (M : Forall2 (moved3 g) vs vs').
    { clear - A Ev Ev'. revert vs vs' Ev Ev'. induction ids as [|j ids IH]; intros [|v vs] [|v' vs'] Ev Ev'; try discriminate; constructor; cbn in Ev, Ev'; injection Ev as E1 E2; injection Ev' as E1' E2'; auto. specialize (A j). rewrite <- E1, <- E1' in A. exact A. }
    assert (Kv : map kind_of vs = [KP3; KP3]).
    { assert (Z : map Some (map kind_of vs) = map (nth_error (fold_left kinds_after cs [])) ids).
      { clear - T Ev. revert vs Ev. induction ids as [|j ids IH]; intros [|v vs] Ev; try discriminate; auto. cbn in *. injection Ev as E1 E2. rewrite (IH vs E2). f_equal. unfold get_estimated_state in E1. rewrite nth_error_map in E1.
        destruct (nth_error (g_nodes (w_graph (s_w s))) j) as [l|] eqn:G; [|discriminate]. cbn in E1. injection E1 as ->. symmetry. apply (tk_kind _ _ _ T j l G). }
      rewrite K in Z. destruct vs as [|? [|? [|? ?]]]; try discriminate. cbn in Z. injection Z as Z1 Z2. cbn. congruence. }
    intros j. destruct (Nat.eq_dec j i) as [->|Nj].
    - rewrite En, En'. cbn. exact (moved3_init g obs vs vs' p Hg Ho Kv M q h I).
    - rewrite Eo, Eo' by auto. apply A. }
  destruct c, c'; cbn [framed3] in F; try contradiction; cbn [pycall_op] in E, E'.
  - destruct F as [-> M]. destruct (C75_add_node lin rob _ s m v t C E0 E) as [X L]. destruct (C75_add_node lin rob _ s' m v0 t' C' E0' E') as [X' _]. rewrite X, X'. apply aligned_Forall2. apply Forall2_app; [apply aligned_Forall2; exact A|]. constructor; auto. apply init_moved3; auto.
  - destruct F as (_ & _ & -> & _). eapply NI; [..|exact E|exact E']; reflexivity.
  - destruct F as (Ho & -> & -> & -> & _ & ->). cbn in Ty1. destruct Ty1 as (_ & T1 & T2). destruct (idO <? idT)%nat; (eapply IN; [exact Ho| |exact E|exact E']; cbn; rewrite T1, T2; reflexivity).
  - destruct F as (-> & -> & -> & _). destruct (idP <? idL)%nat; eapply NI; [..|exact E|exact E'| | |exact E|exact E']; reflexivity.
  - destruct F as (-> & -> & -> & _). destruct (idP <? idL)%nat; eapply NI; [..|exact E|exact E'| | |exact E|exact E']; reflexivity.
  - destruct F as (-> & -> & -> & -> & _). eapply NI; [..|exact E|exact E']; reflexivity.
  - subst. destruct (C75_chi2_solve lin rob _ s C E0) as [X _]. destruct (C75_chi2_solve lin rob _ s' C' E0') as [X' _]. rewrite (X _ _ E), (X' _ _ E'). exact A.
Qed.
Lemma run_aligned lin rob g cs : rigid g -> forall cs', Forall2 (framed3 g) cs cs' -> typed [] cs ->
  exists s s', pycalls lin rob (solver_new world_new) cs = Some s /\ pycalls lin rob (solver_new world_new) cs' = Some s' /\ aligned g (get_estimated_state (s_w s)) (get_estimated_state (s_w s')).
Proof.
  intros Hg. induction cs as [|c cs IH] using rev_ind; intros cs' F T.
  - inversion F; subst. exists (solver_new world_new), (solver_new world_new). split; [reflexivity|]. split; [reflexivity|]. intros [|i]; exact I.
  - apply Forall2_app_inv_l in F. destruct F as (cs1 & c1 & F1 & F2 & ->). inversion F2 as [|? c' ? r Fc Fn]; subst. inversion Fn; subst. pose proof T as T0. apply typed_app in T0. destruct T0 as [T0 _].
    destruct (IH cs1 F1 T0) as (s & s' & E & E' & A). assert (T' : typed [] (cs1 ++ [c'])) by (apply (framed3_typeds g (cs ++ [c])); auto; apply Forall2_app; auto).
    destruct (typed_run lin rob (cs ++ [c]) [] [] (solver_new world_new) good_new tracks_new T) as (t & Et & _). destruct (typed_run lin rob (cs1 ++ [c']) [] [] (solver_new world_new) good_new tracks_new T') as (t' & Et' & _).
    exists t, t'. split; auto. split; auto. rewrite calls_app, E in Et. rewrite calls_app, E' in Et'. unfold pycalls in Et, Et'. cbn [map pyrun] in Et, Et'.
    destruct (pystep lin rob s (pycall_op c)) as [u|] eqn:Eu; [|discriminate]. destruct (pystep lin rob s' (pycall_op c')) as [u'|] eqn:Eu'; [|discriminate]. injection Et as <-. injection Et' as <-.
    eapply (step_aligned lin rob g cs cs1 s s' c c'); eauto.
Qed.
Lemma estimated_state_of w i v : nth_error (get_estimated_state w) i = Some v -> SpecFactors.state_of w i = v.
Proof.
  unfold get_estimated_state, SpecFactors.state_of, get_node. rewrite nth_error_map. destruct (nth_error (g_nodes (w_graph w)) i); cbn; congruence.
Qed.
Lemma typed_in_ids ks c cl ids W i : typed1 ks c -> call_factor c = Some (cl, ids, W) -> In i ids -> (i < length ks)%nat.
Proof.
  intros T E I. apply nth_error_Some. unfold call_factor in E. destruct c; cbn [pycall_op typed1] in *; try discriminate; try (destruct (_ <? _)%nat); injection E as <- <- <-; cbn in I; intuition congruence.
Qed.
Lemma frame_costs lin rob g cs cs' : rigid g -> typed [] cs -> Forall2 (framed3 g) cs cs' ->
  exists s s', pycalls lin rob (solver_new world_new) cs = Some s /\ pycalls lin rob (solver_new world_new) cs' = Some s' /\
    Forall2 (moved3 g) (get_estimated_state (s_w s)) (get_estimated_state (s_w s')) /\
    forall d d', (forall i, (i < length (get_estimated_state (s_w s)))%nat -> moved3 g (d i) (d' i)) -> Forall (small_error g d) cs -> lsum cs' (call_chi2 d') = lsum cs (call_chi2 d).
Proof.
  intros Hg T F. destruct (run_aligned lin rob g cs Hg cs' F T) as (s & s' & E & E' & A). exists s, s'. split; auto. split; auto. split; [apply aligned_Forall2; auto|].
  intros d d' M Sm. destruct (typed_run lin rob cs [] [] (solver_new world_new) good_new tracks_new T) as (s0 & Q & D & Tk). rewrite E in Q. injection Q as <-. cbn [app] in Tk.
  assert (Ln : length (get_estimated_state (s_w s)) = length (fold_left kinds_after cs [])) by (unfold get_estimated_state; rewrite map_length; apply (tk_len _ _ _ Tk)). rewrite Ln in M. clear - Hg T F M Sm.
  assert (G : forall ks, typed ks cs -> (forall i, (i < length (fold_left kinds_after cs ks))%nat -> moved3 g (d i) (d' i)) -> lsum cs' (call_chi2 d') = lsum cs (call_chi2 d)).
  { clear T M. induction F as [|c c' cs cs' Fc F IH]; intros ks T M; [reflexivity|]. inversion Sm as [|? ? S1 S2]; subst. cbn [typed fold_left] in T, M. destruct T as [T1 T2]. rewrite !lsum_cons. rewrite (IH S2 _ T2 M). f_equal.
    apply (frame_call g); auto. intros cl ids W i Ec Ii. apply M. pose proof (typed_in_ids _ _ _ _ _ _ T1 Ec Ii) as L.
    assert (Z : forall l k, (length k <= length (fold_left kinds_after l k))%nat). { clear. induction l as [|c l IH]; intros k; cbn; auto. eapply Nat.le_trans; [|apply IH]. destruct c; cbn; auto. rewrite app_length. lia. }
    pose proof (Z cs (kinds_after ks c)) as Z1. assert (length ks <= length (kinds_after ks c))%nat by (destruct c; cbn; auto; rewrite app_length; lia). lia. }
  apply (G [] T M).
Qed.
