(** Maps of 3D landmarks from known poses, computed in two coordinate frames (C82). *)
Require Import Reals List Arith Lia Lra Bool.
From Verif Require Import Lin LinFacts SpecGeom SO3 SE3 SO3Exp SE3Alg Nodes NodesProofs Robust Graph GraphProofs Sums Solve SpecSolve SolveIndex SolveFrame SolveSums SolveBuild SolveProofs Session SessionProofs.
From Verif Require Import Factors SpecFactors FactorsPlanar FactorsSession SpecFrame SpecFrame3 Frame3Factors Frame3Session SpecSolvable SolvableFactors SolvableSession SpecMapping MappingSession.
Import ListNotations.
Local Open Scope R_scope.

(** ** information in the other frame *)
Definition unlever (g : M4) (xi : V6) : V6 := mkV6 (m3app (m3tr (mR g)) (v6w xi)) (m3app (m3tr (mR g)) (v3sub (v6v xi) (v3cross (mt g) (v6w xi)))).
Lemma unlever_lever g xi : rotation (mR g) -> unlever g (lever g xi) = xi.
Proof.
  intros HQ. unfold unlever, lever. cbn [v6w v6v]. rewrite <- m3app_mul, (rotation_linv _ HQ), m3app_id.
  assert (Z : forall a b : V3, v3sub (v3add a b) b = a) by (intros; lin). rewrite Z, <- m3app_mul, (rotation_linv _ HQ), m3app_id. destruct xi; reflexivity.
Qed.
Lemma lever_unlever g xi : rotation (mR g) -> lever g (unlever g xi) = xi.
Proof.
  intros HQ. unfold unlever, lever. cbn [v6w v6v]. rewrite <- !m3app_mul, (rotation_rinv _ HQ), !m3app_id.
  assert (Z : forall a b : V3, v3add (v3sub a b) b = a) by (intros; lin). rewrite Z. destruct xi; reflexivity.
Qed.
Definition unit6 (i : nat) : V6 := let e k := if Nat.eqb i k then 1 else 0 in mkV6 (mkV3 (e 0%nat) (e 1%nat) (e 2%nat)) (mkV3 (e 3%nat) (e 4%nat) (e 5%nat)).
Definition carried6 (g : M4) (W : nat -> nat -> R) (i j : nat) : R := quad 6 W (lvec (l6 (unlever g (unit6 i)))) (lvec (l6 (unlever g (unit6 j)))).
Lemma quad_scal_l n W a x y : quad n W (fun i => a * x i) y = a * quad n W x y.
Proof. unfold quad. rewrite <- sumn_scal. apply sumn_ext; intros. rewrite <- sumn_scal. apply sumn_ext; intros. ring. Qed.
Lemma quad_scal_r n W a x y : quad n W x (fun i => a * y i) = a * quad n W x y.
Proof. unfold quad. rewrite <- sumn_scal. apply sumn_ext; intros. rewrite <- sumn_scal. apply sumn_ext; intros. ring. Qed.
Lemma quad_sum_l n W m (f : nat -> nat -> R) y : quad n W (fun i => sumn m (fun k => f k i)) y = sumn m (fun k => quad n W (f k) y).
Proof. induction m; cbn [sumn]. { unfold quad. apply sumn_zero; intros. apply sumn_zero; intros. ring. } rewrite quad_plus_l, IHm. reflexivity. Qed.
Lemma quad_sum_r n W m (f : nat -> nat -> R) x : quad n W x (fun i => sumn m (fun k => f k i)) = sumn m (fun k => quad n W x (f k)).
Proof. induction m; cbn [sumn]. { unfold quad. apply sumn_zero; intros. apply sumn_zero; intros. ring. } rewrite quad_plus_r, IHm. reflexivity. Qed.
Lemma unlever_units g xi i : (i < 6)%nat -> lvec (l6 (unlever g xi)) i = sumn 6 (fun k => lvec (l6 xi) k * lvec (l6 (unlever g (unit6 k))) i).
Proof.
  intros Hi. destruct xi as [[a b c] [d e f]], g as [[? ? ? ? ? ? ? ? ?] [? ? ?] ? ?].
  destruct i as [|[|[|[|[|[|i]]]]]]; [..|lia]; unfold unlever, unit6, l6, l3, lvec, m3app, m3tr, v3sub, v3cross; cbn; ring.
Qed.
Lemma carried_quad g W xi : quad 6 (carried6 g W) (lvec (l6 xi)) (lvec (l6 xi)) = quad 6 W (lvec (l6 (unlever g xi))) (lvec (l6 (unlever g xi))).
Proof.
  symmetry. erewrite quad_ext; [|intros; apply (unlever_units g xi); auto|intros; apply (unlever_units g xi); auto].
  rewrite quad_sum_l. unfold quad at 2. apply sumn_ext; intros k _. rewrite quad_sum_r. apply sumn_ext; intros l _. rewrite quad_scal_l, quad_scal_r. unfold carried6. ring.
Qed.
Lemma carried_turned g W : rotation (mR g) -> turned6 g W (carried6 g W).
Proof. intros HQ w v. change (quad 6 (carried6 g W) (lvec (l6 (lever g (mkV6 w v)))) (lvec (l6 (lever g (mkV6 w v)))) = quad 6 W (lvec (l6 (mkV6 w v))) (lvec (l6 (mkV6 w v)))). rewrite carried_quad, unlever_lever; auto. Qed.
Lemma all_l6 (x : nat -> R) : exists xi, forall i, (i < 6)%nat -> x i = lvec (l6 xi) i.
Proof. exists (mkV6 (mkV3 (x 0%nat) (x 1%nat) (x 2%nat)) (mkV3 (x 3%nat) (x 4%nat) (x 5%nat))). intros i Hi. destruct i as [|[|[|[|[|[|i]]]]]]; [..|lia]; reflexivity. Qed.
Lemma carried_proper g W : proper 6 W -> proper 6 (carried6 g W).
Proof.
  intros [Sy Ps]. split. { intros i j _ _. unfold carried6. apply quad_comm. exact Sy. }
  intros x. destruct (all_l6 x) as [xi Ex]. rewrite (quad_ext 6 _ x x (lvec (l6 xi)) (lvec (l6 xi)) Ex Ex), carried_quad. apply Ps.
Qed.
Lemma turned_positive g W W' : rotation (mR g) -> turned6 g W W' -> positive 6 W -> positive 6 W'.
Proof.
  intros HQ T P x Z. destruct (all_l6 x) as [xi Ex]. rewrite (quad_ext 6 _ x x (lvec (l6 xi)) (lvec (l6 xi)) Ex Ex), <- (lever_unlever g xi HQ), (turned_quad g W W' _ T) in Z.
  specialize (P _ Z). assert (U : unlever g xi = mkV6 v3zero v3zero).
  { destruct (unlever g xi) as [[a b c] [d e f]]. pose proof (P 0%nat ltac:(lia)). pose proof (P 1%nat ltac:(lia)). pose proof (P 2%nat ltac:(lia)). pose proof (P 3%nat ltac:(lia)). pose proof (P 4%nat ltac:(lia)). pose proof (P 5%nat ltac:(lia)). cbn in *. subst. reflexivity. }
  intros i Hi. rewrite (Ex i Hi), <- (lever_unlever g xi HQ), U. unfold lever. cbn [v6w v6v]. generalize (mR g) (mt g). intros [? ? ? ? ? ? ? ? ?] [? ? ?]. destruct i as [|[|[|[|[|[|i]]]]]]; [..|lia]; unfold l6, l3, lvec, m3app, v3cross, v3add, v3zero; cbn; ring.
Qed.

(** ** the hypotheses of C81 in the other frame *)
Definition same_node (g : M4) (p p' : node_mode * nval) : Prop := fst p' = fst p /\ moved3 g (snd p) (snd p').
Lemma nodes_framed g cs cs' : Forall2 (framed3 g) cs cs' -> Forall2 (same_node g) (nodes_of cs) (nodes_of cs').
Proof.
  induction 1 as [|c c' cs cs' F _ IH]; [constructor|]. change (nodes_of (c :: cs)) with (nodes_of1 c ++ nodes_of cs). change (nodes_of (c' :: cs')) with (nodes_of1 c' ++ nodes_of cs'). apply Forall2_app; auto.
  destruct c, c'; cbn [framed3] in F; try contradiction; cbn; try constructor; auto.
Qed.
Lemma Forall2_at {A B} (P : A -> B -> Prop) l l' i : Forall2 P l l' -> match nth_error l i, nth_error l' i with Some a, Some b => P a b | None, None => True | _, _ => False end.
Proof. intros F. revert i. induction F; intros [|i]; cbn; auto. apply IHF. Qed.
Lemma Forall2_in {A B} (P : A -> B -> Prop) l l' a : Forall2 P l l' -> In a l -> exists b, In b l' /\ P a b.
Proof. induction 1 as [|x y l l' Q F IH]; [intros []|]. intros [<-|I]; [exists y; split; [left|]; auto|]. destruct (IH I) as (b & Ib & Qb). exists b. split; [right|]; auto. Qed.
Lemma node_at g cs cs' i : Forall2 (framed3 g) cs cs' -> forall m v', nth_error (nodes_of cs') i = Some (m, v') -> exists v, nth_error (nodes_of cs) i = Some (m, v) /\ moved3 g v v'.
Proof. intros F m v' E. pose proof (Forall2_at _ _ _ i (nodes_framed g cs cs' F)) as Q. rewrite E in Q. destruct (nth_error (nodes_of cs) i) as [[m0 v]|]; [|contradiction]. destruct Q as [Q1 Q2]. cbn in *. subst. eauto. Qed.
Lemma node_at' g cs cs' i : Forall2 (framed3 g) cs cs' -> forall m v, nth_error (nodes_of cs) i = Some (m, v) -> exists v', nth_error (nodes_of cs') i = Some (m, v') /\ moved3 g v v'.
Proof. intros F m v E. pose proof (Forall2_at _ _ _ i (nodes_framed g cs cs' F)) as Q. rewrite E in Q. destruct (nth_error (nodes_of cs') i) as [[m0 v']|]; [|contradiction]. destruct Q as [Q1 Q2]. cbn in *. subst. eauto. Qed.
Lemma framed_mapping g cs cs' : Forall2 (framed3 g) cs cs' -> mapping cs -> mapping cs'.
Proof. intros F M i m v' E N. destruct (node_at g cs cs' i F m v' E) as (v & Ev & Mv). rewrite (moved3_kind g v v' Mv). eauto. Qed.
Lemma rigid_is_solid T : rigid T -> solid T. Proof. intros ((_ & D) & B & C). repeat split; auto. rewrite D. lra. Qed.
Lemma framed_solid g cs cs' : rigid g -> Forall2 (framed3 g) cs cs' -> Forall solid_call cs /\ Forall solid_call cs'.
Proof.
  intros Hg. induction 1 as [|c c' cs cs' F _ [I1 I2]]; [split; constructor|]. split; constructor; auto; destruct c, c'; cbn [framed3] in F; try contradiction; cbn; auto.
  - destruct v, v0; cbn; auto; destruct F as [_ F]; try contradiction. apply rigid_is_solid, F.
  - apply rigid_is_solid, F.
  - destruct v, v0; cbn; auto; destruct F as [_ F]; try contradiction. destruct F as [F ->]. apply rigid_is_solid, rigid_mul; auto.
  - destruct F as (F & -> & _). apply rigid_is_solid, F.
Qed.
Lemma framed_held g cs cs' i : rigid g -> Forall2 (framed3 g) cs cs' -> held cs i -> held cs' i.
Proof.
  intros Hg F H. assert (X : forall c, In c cs -> exists c', In c' cs' /\ framed3 g c c') by (intros c; apply Forall2_in; auto).
  induction H as [i v E|obs i W I P|obs i W I P|obs i j W u I P H IH|obs i j W u I P H IH|obs i j W I P H IH|obs i j W I P H IH|obs i j W u I P H IH|obs i j W u I P H IH|r b i j W u I P H IH|obs i j W u I P H IH|obs i j W I P H IH].
  - destruct (node_at' g cs cs' i F _ _ E) as (v' & E' & _). eapply held_anchor; eauto.
  - destruct (X _ I) as ([] & I' & Q); cbn in Q; contradiction.
  - destruct (X _ I) as ([] & I' & Q); cbn in Q; try contradiction. destruct Q as (_ & _ & -> & T). eapply held_pose3d; eauto. eapply turned_positive; eauto. apply Hg.
  - destruct (X _ I) as ([] & I' & Q); cbn in Q; contradiction.
  - destruct (X _ I) as ([] & I' & Q); cbn in Q; contradiction.
  - destruct (X _ I) as ([] & I' & Q); cbn in Q; contradiction.
  - destruct (X _ I) as ([] & I' & Q); cbn in Q; contradiction.
  - destruct (X _ I) as ([] & I' & Q); cbn in Q; try contradiction. destruct Q as (_ & -> & -> & -> & T & ->). eapply held_2poses3d; eauto. eapply turned_positive; eauto. apply Hg.
  - destruct (X _ I) as ([] & I' & Q); cbn in Q; try contradiction. destruct Q as (_ & -> & -> & -> & T & ->). eapply held_2poses3d'; eauto. eapply turned_positive; eauto. apply Hg.
  - destruct (X _ I) as ([] & I' & Q); cbn in Q; contradiction.
  - destruct (X _ I) as ([] & I' & Q); cbn in Q; try contradiction. destruct Q as (-> & -> & -> & -> & ->). eapply held_landmark3d; eauto.
  - destruct (X _ I) as ([] & I' & Q); cbn in Q; try contradiction. destruct Q as (-> & -> & -> & ->). eapply held_plane; eauto.
Qed.

(** ** the costs of two maps differ by the same in both frames *)
Lemma excess g ks c c' d1 d1' d2 d2' : rigid g -> framed3 g c c' -> typed1 ks c ->
  (forall i, (i < length ks)%nat -> moved3 g (d1 i) (d1' i) /\ moved3 g (d2 i) (d2' i)) -> (forall i k, nth_error ks i = Some k -> k <> KL3 -> d1 i = d2 i /\ d1' i = d2' i) ->
  call_chi2 d1' c' - call_chi2 d1 c = call_chi2 d2' c' - call_chi2 d2 c.
Proof.
  intros Hg F T M K. assert (L : forall i k, nth_error ks i = Some k -> (i < length ks)%nat) by (intros i k Q; apply nth_error_Some; congruence).
  destruct c, c'; cbn [framed3] in F; try contradiction; cbn [typed1] in T; try (unfold call_chi2, call_factor; cbn [pycall_op]; ring).
  - destruct F as (_ & _ & -> & _). destruct (K _ _ T ltac:(discriminate)) as [K1 K2]. unfold call_chi2, call_factor. cbn [pycall_op map]. rewrite K1, K2. reflexivity.
  - destruct F as (_ & -> & -> & -> & _ & ->). destruct T as (_ & T1 & T2). destruct (K _ _ T1 ltac:(discriminate)) as [K1 K2]. destruct (K _ _ T2 ltac:(discriminate)) as [K3 K4]. unfold call_chi2, call_factor. cbn [pycall_op]. destruct (idO <? idT)%nat; cbn [map]; rewrite K1, K2, K3, K4; reflexivity.
  - destruct F as (-> & -> & -> & -> & ->). match goal with |- call_chi2 _ ?c - _ = _ => set (cl := c) end.
    assert (Z : forall d d', (forall i, (i < length ks)%nat -> moved3 g (d i) (d' i)) -> call_chi2 d' cl = call_chi2 d cl).
    { intros d d' Md. apply (frame_call g); auto; [repeat split| |exact I]. intros cl0 ids W1 i Ec Ii. apply Md. eapply typed_in_ids; [|exact Ec|exact Ii]. exact T. }
    rewrite (Z d1 d1'), (Z d2 d2'); [ring| |]; intros i Hi; apply (M i Hi).
  - destruct F as (-> & -> & -> & ->). destruct T as (T1 & T2). destruct (K _ _ T1 ltac:(discriminate)) as [K1 K2]. destruct (K _ _ T2 ltac:(discriminate)) as [K3 K4]. unfold call_chi2, call_factor. cbn [pycall_op]. destruct (idP <? idL)%nat; cbn [map]; rewrite K1, K2, K3, K4; reflexivity.
  - destruct F as (-> & -> & -> & -> & ->). destruct (K _ _ T ltac:(discriminate)) as [K1 K2]. unfold call_chi2, call_factor. cbn [pycall_op map]. rewrite K1, K2. reflexivity.
Qed.
Lemma kinds_grow l : forall k, exists r, fold_left kinds_after l k = k ++ r.
Proof. induction l as [|c l IH]; intros k; cbn. { exists []. rewrite app_nil_r. auto. } destruct (IH (kinds_after k c)) as [r ->]. destruct c; cbn; eauto. rewrite <- app_assoc. eauto. Qed.
Lemma excess_all g d1 d1' d2 d2' cs cs' : rigid g -> Forall2 (framed3 g) cs cs' -> forall ks, typed ks cs ->
  (forall i, (i < length (fold_left kinds_after cs ks))%nat -> moved3 g (d1 i) (d1' i) /\ moved3 g (d2 i) (d2' i)) -> (forall i k, nth_error (fold_left kinds_after cs ks) i = Some k -> k <> KL3 -> d1 i = d2 i /\ d1' i = d2' i) ->
  lsum cs' (call_chi2 d1') - lsum cs (call_chi2 d1) = lsum cs' (call_chi2 d2') - lsum cs (call_chi2 d2).
Proof.
  intros Hg F. induction F as [|c c' cs cs' Fc F IH]; intros ks T M K; [reflexivity|]. cbn [typed fold_left] in T, M, K. destruct T as [T1 T2]. rewrite !lsum_cons. specialize (IH _ T2 M K).
  destruct (kinds_grow cs (kinds_after ks c)) as [r Er]. assert (G : exists r, fold_left kinds_after cs (kinds_after ks c) = ks ++ r) by (rewrite Er; destruct c; cbn; eauto; rewrite <- app_assoc; eauto). clear r Er. destruct G as [r Er]. rewrite Er in M, K.
  assert (X : call_chi2 d1' c' - call_chi2 d1 c = call_chi2 d2' c' - call_chi2 d2 c).
  { apply (excess g ks); auto. - intros i Hi. apply M. rewrite app_length. lia. - intros i k Q. apply K. rewrite nth_error_app1; auto. apply nth_error_Some. congruence. }
  lra.
Qed.

(** ** the maps *)
Definition place (g : M4) (v : nval) : nval := match v with L3 p => L3 (placed g p) | _ => v end.
Definition unplace (g : M4) (v : nval) : nval := match v with L3 p => L3 (m3app (m3tr (mR g)) (v3sub p (mt g))) | _ => v end.
Lemma unplace_moved g p : rigid g -> moved3 g (unplace g (L3 p)) (L3 p).
Proof. intros (HQ & _). cbn. unfold placed. rewrite <- m3app_mul, (rotation_rinv _ HQ), m3app_id. lin. Qed.
Definition anchored (cs : list pycall) (i : nat) : bool := match nth_error (nodes_of cs) i with Some (ANCHOR, _) => true | _ => false end.

Lemma frame_map lin g cs cs' k la tol : exact lin -> rigid g -> typed [] cs -> mapping cs -> Forall call_info cs -> Forall call_info cs' ->
  (forall i, (i < length (nodes_of cs))%nat -> held cs i) -> Forall2 (framed3 g) cs cs' ->
  exists s s' t t', pycalls lin QUADRATIC (solver_new world_new) cs = Some s /\ pycalls lin QUADRATIC (solver_new world_new) cs' = Some s' /\ solve lin GN k la tol s = Some t /\ solve lin GN k la tol s' = Some t' /\
    Forall2 (moved3 g) (get_estimated_state (s_w s)) (get_estimated_state (s_w s')) /\ Forall2 (moved3 g) (get_estimated_state (s_w t)) (get_estimated_state (s_w t')).
Proof.
  intros X Hg T Mp P P' Hd F. destruct (run_aligned lin QUADRATIC g cs Hg cs' F T) as (s & s' & E & E' & A). pose proof (framed3_typeds g cs [] cs' F T) as T'. pose proof (framed_mapping g cs cs' F Mp) as Mp'. destruct (framed_solid g cs cs' Hg F) as [So So'].
  assert (Len : length (nodes_of cs') = length (nodes_of cs)) by (pose proof (nodes_framed g cs cs' F) as Q; clear - Q; induction Q; cbn; congruence).
  assert (Hd' : forall i, (i < length (nodes_of cs'))%nat -> held cs' i) by (intros i Hi; apply (framed_held g cs); auto; apply Hd; lia).
  destruct (mapping_inv lin cs s T So E) as [V _]. destruct (mapping_inv lin cs' s' T' So' E') as [V' _].
  destruct (solve_total lin GN k la tol s (gd_wf _ (iv_good _ _ _ V))) as (t & Et). destruct (solve_total lin GN k la tol s' (gd_wf _ (iv_good _ _ _ V'))) as (t' & Et').
  exists s, s', t, t'. do 4 (split; [assumption|]). split; [apply aligned_Forall2; exact A|].
  destruct (mapping_step lin cs k la tol s t X T Mp So P Hd E Et) as (_ & _ & _ & R1). destruct (mapping_step lin cs' k la tol s' t' X T' Mp' So' P' Hd' E' Et') as (_ & _ & _ & R2).
  pose proof (mapping_inv' lin cs k la tol s t T So E Et) as Vt. pose proof (mapping_inv' lin cs' k la tol s' t' T' So' E' Et') as Vt'.
  assert (Ln : forall cs w, inv QUADRATIC cs w -> length (get_estimated_state w) = length (nodes_of cs)).
  { clear. intros cs w V. unfold get_estimated_state. rewrite map_length, (tk_len _ _ _ (iv_tracks _ _ _ V)), kinds_nodes. cbn. apply map_length. }
  assert (At : forall cs w i, inv QUADRATIC cs w -> (i < length (nodes_of cs))%nat -> nth_error (get_estimated_state w) i = Some (state_of w i)).
  { intros cs0 w i V0 Hi. rewrite <- (Ln cs0 w V0) in Hi. destruct (nth_error (get_estimated_state w) i) eqn:G; [|apply nth_error_None in G; lia]. rewrite (estimated_state_of _ _ _ G). reflexivity. }
  assert (A' : forall i, (i < length (nodes_of cs))%nat -> moved3 g (state_of (s_w s) i) (state_of (s_w s') i)).
  { intros i Hi. specialize (A i). rewrite (At cs (s_w s) i V Hi), (At cs' (s_w s') i V') in A by lia. exact A. }
  set (d := fun i => if anchored cs i then state_of (s_w s) i else unplace g (state_of (s_w t') i)). set (d' := fun i => if anchored cs i then state_of (s_w s') i else place g (state_of (s_w t) i)).
  assert (D' : forall i m v, nth_error (nodes_of cs) i = Some (m, v) -> anchored cs i = match m with ANCHOR => true | _ => false end) by (intros i m v Q; unfold anchored; rewrite Q; destruct m; reflexivity).
  assert (Re : rearranged cs (state_of (s_w t)) d).
  { intros i m v Q. pose proof (R1 i m v Q) as Q1. destruct (node_at' g cs cs' i F m v Q) as (v' & Q' & _). pose proof (R2 i m v' Q') as Q2. unfold d. rewrite (D' i m v Q). destruct m; auto; destruct Q2 as [q ->]; cbn; eauto. }
  assert (Re' : rearranged cs' (state_of (s_w t')) d').
  { intros i m v' Q'. destruct (node_at g cs cs' i F m v' Q') as (v & Q & _). pose proof (R1 i m v Q) as Q1. pose proof (R2 i m v' Q') as Q2. unfold d'. rewrite (D' i m v Q). destruct m; auto; destruct Q1 as [q ->]; cbn; eauto. }
  destruct (mapping_best lin cs k la tol s t X T Mp So P Hd E Et d Re) as [B1 _]. destruct (mapping_best lin cs' k la tol s' t' X T' Mp' So' P' Hd' E' Et' d' Re') as [_ B2].
  rewrite (tracks_chi2 _ cs _ (iv_tracks _ _ _ Vt)) in B1. rewrite (tracks_chi2 _ cs' _ (iv_tracks _ _ _ Vt')) in B2.
  assert (Mv : forall i, (i < length (nodes_of cs))%nat -> moved3 g (state_of (s_w t) i) (d' i) /\ moved3 g (d i) (state_of (s_w t') i)).
  { intros i Hi. destruct (nth_error (nodes_of cs) i) as [[m v]|] eqn:Q; [|apply nth_error_None in Q; lia]. destruct (node_at' g cs cs' i F m v Q) as (v' & Q' & _). pose proof (R1 i m v Q) as Q1. pose proof (R2 i m v' Q') as Q2. unfold d, d'. rewrite (D' i m v Q). specialize (A' i Hi).
    destruct m; [destruct Q1 as [q1 ->]; destruct Q2 as [q2 ->]; split; [reflexivity | apply unplace_moved; auto] | rewrite Q1, Q2; auto | destruct Q1 as [q1 ->]; destruct Q2 as [q2 ->]; split; [reflexivity | apply unplace_moved; auto]]. }
  assert (Ex : lsum cs' (call_chi2 d') - lsum cs (call_chi2 (state_of (s_w t))) = lsum cs' (call_chi2 (state_of (s_w t'))) - lsum cs (call_chi2 d)).
  { apply (excess_all g (state_of (s_w t)) d' d (state_of (s_w t')) cs cs' Hg F [] T).
    - intros i Hi. apply Mv. rewrite kinds_nodes in Hi. cbn in Hi. rewrite map_length in Hi. exact Hi.
    - intros i kd Q N. rewrite kinds_nodes in Q. cbn [app] in Q. rewrite nth_error_map in Q. destruct (nth_error (nodes_of cs) i) as [[m v]|] eqn:G; [|discriminate]. cbn in Q. injection Q as <-. destruct (node_at' g cs cs' i F m v G) as (v' & G' & _). pose proof (R1 i m v G) as Q1. pose proof (R2 i m v' G') as Q2. unfold d, d'. rewrite (D' i m v G).
      destruct m; [exfalso; apply N; apply (Mp i _ _ G); discriminate | rewrite Q1, Q2; auto | exfalso; apply N; apply (Mp i _ _ G); discriminate]. }
  assert (Eq : forall j, (j < length (nodes_of cs'))%nat -> d' j = state_of (s_w t') j) by (apply B2; lra).
  apply aligned_Forall2. intros i. destruct (Nat.lt_ge_cases i (length (nodes_of cs))) as [Hi|Hi].
  - rewrite (At cs (s_w t) i Vt Hi), (At cs' (s_w t') i Vt') by lia. cbn. rewrite <- Eq by lia. apply Mv; auto.
  - assert (nth_error (get_estimated_state (s_w t)) i = None) as -> by (apply nth_error_None; rewrite (Ln cs _ Vt); auto). assert (nth_error (get_estimated_state (s_w t')) i = None) as -> by (apply nth_error_None; rewrite (Ln cs' _ Vt'); lia). exact I.
Qed.
