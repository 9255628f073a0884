(** Sessions whose graphs float (C80). *)
Require Import Reals List Arith Lia Lra Bool Permutation.
From Verif Require Import Lin SO3 SE3 AngleProofs Nodes NodesProofs Robust RobustProofs Graph GraphProofs Sums Solve SpecSolve SolveIndex SolveFrame SolveSums SolveBuild SolveProofs DenseProofs Session SessionProofs.
From Verif Require Import Factors SpecFactors FactorsPlanar FactorsSession SpecFrame FrameFactors FrameSolve FrameSession SpecSolvable SolvableFactors SolvableSession.
Import ListNotations.
Local Open Scope R_scope.
Local Arguments nd : simpl never.
Local Arguments fa : simpl never.

Definition sway (F : nat -> bool) (a b om : R) (w : world) : nat -> R :=
  pack (ndim w) (g_active (w_graph w)) (fun l => if F (n_id (nd w l)) then swing a b om (nst (n_data (nd w l))) else fun _ => 0).
Lemma row_dir_ext row (st : nat -> nval) (f g : nat -> nat -> R) (ids : list nat) : (forall i k, In i ids -> (k < nval_dim (st i))%nat -> f i k = g i k) -> forall off, row_dir row off (map st ids) (map f ids) = row_dir row off (map st ids) (map g ids).
Proof.
  induction ids as [|i ids IH]; intros H off; cbn; auto. rewrite IH by (intros; apply H; cbn; auto). f_equal. apply sumn_ext. intros k K. rewrite (H i k); cbn; auto.
Qed.
Lemma row_dir_zero {A} row (ids : list A) : forall vs off, row_dir row off vs (map (fun _ => fun _ : nat => 0) ids) = 0.
Proof.
  induction ids as [|i ids IH]; intros [|v vs] off; cbn; auto. rewrite IH, sumn_zero; [ring|]. intros; ring.
Qed.
Section Floats.
  Variables (rob : robust_type) (cs : list pycall) (F : nat -> bool).
  Hypothesis T : typed [] cs.
  Hypothesis Fl : floating F cs.
  Lemma float_std w i l : inv rob cs w -> get_node w i = Some l -> F i = true -> is_anchor (nd w l) = false /\ In l (g_active (w_graph w)).
  Proof using Fl.
    intros V G E. destruct (proj1 Fl i E) as (v & Hn & _). pose proof (ho_mode _ _ _ _ (iv_holds _ _ _ V) i l G) as M. rewrite Hn in M. cbn in M. injection M as M.
    split. unfold is_anchor. rewrite <- M. reflexivity. apply (gd_std _ (iv_good _ _ _ V)). apply (nth_error_In _ _ G). rewrite <- M. discriminate.
  Qed.
  Lemma float_node w i : inv rob cs w -> F i = true -> exists l, get_node w i = Some l.
  Proof using Fl.
    intros V E. destruct (proj1 Fl i E) as (v & Hn & _). assert (L : (i < length (nodes_of cs))%nat) by (apply nth_error_Some; congruence). rewrite <- (ho_nlen _ _ _ _ (iv_holds _ _ _ V)) in L.
    unfold get_node. destruct (nth_error (g_nodes (w_graph w)) i) eqn:N; eauto. apply nth_error_None in N. lia.
  Qed.
  Lemma sway_inc w a b om i k : inv rob cs w -> (k < nval_dim (state_of w i))%nat -> inc_of w (sway F a b om w) i k = if F i then swing a b om (state_of w i) k else 0.
  Proof using Fl.
    intros V K. unfold inc_of, state_of in *. destruct (get_node w i) as [l|] eqn:G.
    - destruct (gd_ids _ (iv_good _ _ _ V) i l G) as [L Id]. unfold increments. destruct (is_anchor (nd w l)) eqn:A.
      + destruct (F i) eqn:Fi; auto. destruct (float_std w i l V G Fi). congruence.
      + assert (Ia : In l (g_active (w_graph w))). { apply (gd_std _ (iv_good _ _ _ V)). apply (nth_error_In _ _ G). intros M. unfold is_anchor in A. rewrite M in A. discriminate. }
        unfold sway, col. rewrite (pack_at (ndim w) _ _ _ l); [|apply index_of_nth; auto|]. rewrite Id. destruct (F i); auto. unfold ndim. destruct (gd_kind _ (iv_good _ _ _ V) l L) as [-> _]. exact K.
    - destruct (F i) eqn:Fi; auto. destruct (float_node w i V Fi). congruence.
  Qed.
  Lemma not_planar w i k : inv rob cs w -> nth_error (fold_left kinds_after cs []) i = Some k -> k <> KP2 -> k <> KL2 -> F i = false.
  Proof using Fl.
    intros V E N1 N2. destruct (F i) eqn:Fi; auto. destruct (proj1 Fl i Fi) as (v & Hn & Kv). rewrite kinds_nodes in E. cbn [app] in E. rewrite nth_error_map, Hn in E. cbn in E. injection E as <-. destruct Kv; congruence.
  Qed.
  Lemma sway_unseen w a b om c cl ids W : inv rob cs w -> apart F cs (state_of w) -> turns_no_odom F cs om -> In c cs -> call_factor c = Some (cl, ids, W) ->
    unseen cl (map (state_of w) ids) (map (inc_of w (sway F a b om w)) ids).
  Proof using T Fl.
    intros V Ap Od I E q Hq. rewrite (row_dir_ext _ (state_of w) _ (fun i => if F i then swing a b om (state_of w i) else fun _ => 0)).
    2:{ intros i k _ K. rewrite sway_inc by auto. destruct (F i); reflexivity. }
    revert q Hq. change (unseen cl (map (state_of w) ids) (map (fun i => if F i then swing a b om (state_of w i) else fun _ => 0) ids)).
    assert (Zero : (forall i, In i ids -> F i = false) -> unseen cl (map (state_of w) ids) (map (fun i => if F i then swing a b om (state_of w i) else fun _ => 0) ids)).
    { intros Z q _. etransitivity; [|exact (row_dir_zero (fc_jac cl (map (state_of w) ids) q) ids (map (state_of w) ids) 0)]. f_equal. apply map_ext_in. intros i Ii. rewrite Z; auto. }
    pose proof (typed_in cs c [] T I) as Ty. pose proof (proj2 Fl c I) as Fc.
    assert (K : forall i k, nth_error (fold_left kinds_after cs []) i = Some k -> kind_of (state_of w i) = k). { intros j k Ej. destruct (state_kind rob cs w j k V Ej) as (_ & _ & A & _). exact A. }
    pose proof (fun i k => not_planar w i k V) as NP.
    unfold call_factor in E. destruct c; cbn [pycall_op typed1] in E, Ty, Fc; try discriminate.
    - injection E as <- <- <-. apply Zero. intros i [<-|[]]. exact Fc.
    - destruct Ty as (_ & T1 & T2). destruct (F idO) eqn:FO.
      + apply K in T1. apply K in T2. destruct (idO <? idT)%nat; injection E as <- <- <-; cbn [map]; rewrite FO, <- Fc; destruct (state_of w idO), (state_of w idT); try discriminate; apply float_2poses2d.
      + apply Zero. destruct (idO <? idT)%nat; injection E as <- <- <-; intros i [<-|[<-|[]]]; auto.
    - destruct Ty as (_ & T1 & T2). destruct (F idO) eqn:FO.
      + destruct Od as [->|Od]; [|specialize (Od _ _ _ _ I); congruence]. apply K in T1. apply K in T2. destruct (idO <? idT)%nat; injection E as <- <- <-; cbn [map]; rewrite FO, <- Fc; destruct (state_of w idO), (state_of w idT); try discriminate; apply float_odom.
      + apply Zero. destruct (idO <? idT)%nat; injection E as <- <- <-; intros i [<-|[<-|[]]]; auto.
    - injection E as <- <- <-. apply Zero. intros i [<-|[]]. apply (NP _ _ Ty); discriminate.
    - destruct Ty as (_ & T1 & T2). apply Zero. assert (F idO = false) by (apply (NP _ _ T1); discriminate). assert (F idT = false) by (apply (NP _ _ T2); discriminate). destruct (idO <? idT)%nat; injection E as <- <- <-; intros i [<-|[<-|[]]]; auto.
    - destruct Ty as (T1 & T2). apply Zero. assert (F idP = false) by (apply (NP _ _ T1); discriminate). assert (F idL = false) by (apply (NP _ _ T2); discriminate). destruct (idP <? idL)%nat; injection E as <- <- <-; intros i [<-|[<-|[]]]; auto.
    - destruct Ty as (T1 & T2). destruct (F idP) eqn:FO.
      + apply K in T1. apply K in T2. pose proof (fun p x y => Ap _ _ _ _ _ _ p x y I FO) as Ap'. destruct (idP <? idL)%nat; injection E as <- <- <-; cbn [map]; rewrite FO, <- Fc; destruct (state_of w idP) as [p| | | |], (state_of w idL) as [| |lx ly| |]; try discriminate; apply float_landmark2d; apply Ap'; auto.
      + apply Zero. destruct (idP <? idL)%nat; injection E as <- <- <-; intros i [<-|[<-|[]]]; auto.
    - destruct Ty as (T1 & T2). apply Zero. assert (F idP = false) by (apply (NP _ _ T1); discriminate). assert (F idL = false) by (apply (NP _ _ T2); discriminate). destruct (idP <? idL)%nat; injection E as <- <- <-; intros i [<-|[<-|[]]]; auto.
    - injection E as <- <- <-. apply Zero. intros i [<-|[]]. apply (NP _ _ Ty); discriminate.
  Qed.
  Lemma sway_jac w a b om l i : inv rob cs w -> apart F cs (state_of w) -> turns_no_odom F cs om -> In l (g_factors (w_graph w)) -> (i < fdim w l)%nat -> jac_times w l (increments w (sway F a b om w)) i = 0.
  Proof using T Fl.
    intros V Ap Od I Hi. pose proof I as I'. rewrite (tk_fac _ _ _ (iv_tracks _ _ _ V)) in I'. apply in_seq in I'.
    destruct (nth_error (flat_map facts cs) l) as [[[cl ids] W]|] eqn:E; [|apply nth_error_None in E; lia]. destruct (jac_times_class rob cs w l cl ids W (sway F a b om w) i V E) as [_ ->].
    destruct (facts_in _ _ _ _ _ E) as (c & Ic & Fc). apply (sway_unseen w a b om c cl ids W V Ap Od Ic Fc). destruct (tk_cls _ _ _ (iv_tracks _ _ _ V) l cl ids W E) as (D & _). unfold fdim in Hi. rewrite D in Hi. exact Hi.
  Qed.
  Lemma quad_zero_r d W x y : (forall i, (i < d)%nat -> y i = 0) -> quad d W x y = 0.
  Proof. intros H. apply sumn_zero. intros i Hi. apply sumn_zero. intros j Hj. rewrite H by auto. ring. Qed.
  Lemma quad_zero_l d W x y : (forall i, (i < d)%nat -> x i = 0) -> quad d W x y = 0.
  Proof. intros H. apply sumn_zero. intros i Hi. apply sumn_zero. intros j Hj. rewrite H by auto. ring. Qed.
  Lemma sway_system s b0 a b om : inv rob cs (s_w s) -> apart F cs (state_of (s_w s)) -> turns_no_odom F cs om -> built s b0 ->
    let n := g_stateDim (w_graph (s_w s)) in let x := sway F a b om (s_w s) in
    (forall y, form n (s_L (build_info_adjacency b0)) y x = 0) /\ (forall y, form n (s_L (build_info_adjacency b0)) x y = 0) /\ dot n (s_b (build_info_adjacency b0)) x = 0.
  Proof using T Fl.
    intros V Ap Od B n x. pose proof (gd_wf _ (iv_good _ _ _ V)) as Wf.
    assert (Z : forall l, In l (g_factors (w_graph (s_w s))) -> forall i, (i < fdim (s_w s) l)%nat -> jac_times (s_w s) l (increments (s_w s) x) i = 0) by (intros l I i Hi; apply sway_jac; auto).
    split; [|split].
    - intros y. unfold form. unfold n. rewrite (normal_matrix s b0 y x Wf B). apply lsum_zero. intros l I. rewrite quad_zero_r by (apply Z; auto). ring.
    - intros y. unfold form. unfold n. rewrite (normal_matrix s b0 x y Wf B). apply lsum_zero. intros l I. rewrite quad_zero_l by (apply Z; auto). ring.
    - unfold dot, n. rewrite (normal_rhs s b0 x Wf B). apply lsum_zero. intros l I. rewrite quad_zero_l by (apply Z; auto). ring.
  Qed.
  Lemma float_null s b u a c om : inv rob cs (s_w s) -> apart F cs (state_of (s_w s)) -> turns_no_odom F cs om -> build_problem u s = Some b ->
    let n := g_stateDim (w_graph (s_w s)) in exists x, (forall i, (i < n)%nat -> sumn n (fun j => s_L b i j * x j) = 0) /\ sumn n (fun i => s_b b i * x i) = 0 /\
      forall i l k, get_node (s_w s) i = Some l -> (k < nval_dim (state_of (s_w s) i))%nat -> increments (s_w s) x l k = if F i then swing a c om (state_of (s_w s) i) k else 0.
  Proof using T Fl.
    intros V Ap Od Q n. pose proof (gd_wf _ (iv_good _ _ _ V)) as Wf. destruct (build_wf s Wf) as (b0 & Eb0 & B). exists (sway F a c om (s_w s)).
    destruct (sway_system s b0 a c om V Ap Od B) as (A1 & _ & A3). fold n in A1, A3.
    assert (EL : s_L b = s_L (build_info_adjacency b0) /\ s_b b = s_b (build_info_adjacency b0)) by (unfold build_problem in Q; rewrite Eb0 in Q; injection Q as <-; destruct u; split; reflexivity). destruct EL as [-> ->].
    split. { intros i Hi. specialize (A1 (unit i)). rewrite form_rows, dot_unit in A1 by auto. exact A1. }
    split; [exact A3|]. intros i l k G K. rewrite <- (sway_inc (s_w s) a c om i k V K). unfold inc_of. rewrite G. reflexivity.
  Qed.
  Lemma float_singular s b u : (exists i, F i = true) -> inv rob cs (s_w s) -> apart F cs (state_of (s_w s)) -> build_problem u s = Some b -> ~ nonsingular (g_stateDim (w_graph (s_w s))) (s_L b).
  Proof using T Fl.
    intros (i & Fi) V Ap Q NS. destruct (float_null s b u 1 0 0 V Ap (or_introl eq_refl) Q) as (x & A & _ & Ix). destruct (float_node (s_w s) i V Fi) as [l G]. pose proof (NS x A) as Z.
    destruct (proj1 Fl i Fi) as (v & Hn & Kv). assert (Ks : nth_error (fold_left kinds_after cs []) i = Some (kind_of v)) by (rewrite kinds_nodes; cbn [app]; rewrite nth_error_map, Hn; reflexivity).
    destruct (state_kind rob cs (s_w s) i _ V Ks) as (l' & G' & Ki & L & D). rewrite G in G'. injection G' as <-. destruct (float_std (s_w s) i l V G Fi) as [An Ia]. destruct (In_nth_error _ _ Ia) as [m M].
    specialize (Ix i l 0%nat G). rewrite Fi in Ix. rewrite (below_incr (s_w s) x (fun _ => 0) m l 0 (gd_wf _ (iv_good _ _ _ V))) in Ix.
    - unfold increments in Ix. rewrite An in Ix. destruct Kv as [Kv|Kv]; rewrite Kv in Ki; destruct (state_of (s_w s) i); try discriminate; cbn in Ix; specialize (Ix ltac:(lia)); lra.
    - intros j Hj. apply Z; auto.
    - exact M.
    - unfold ndim. rewrite D. destruct Kv as [Kv|Kv]; rewrite Kv in Ki; destruct (state_of (s_w s) i); try discriminate; cbn; lia.
  Qed.
End Floats.
(** ** Levenberg-Marquardt keeps the sum of the positions *)
Section Centroid.
  Variables (rob : robust_type) (cs : list pycall) (F : nat -> bool).
  Hypothesis T : typed [] cs.
  Hypothesis Fl : floating F cs.
  Hypothesis NL : forall r b i j W u, In (CLandmark2d r b i j W u) cs -> F i = false.
  Hypothesis P : Forall call_info cs.
  Hypothesis NR : rob <> RANSAC.
  Lemma no_landmark_apart st : apart F cs st.
  Proof using NL. intros r b i j W u p x y I Fi. specialize (NL _ _ _ _ _ _ I). congruence. Qed.
  Definition cx (f : nval -> R) (w : world) : R := lsum (g_active (w_graph w)) (fun l => if F (n_id (nd w l)) then f (nst (n_data (nd w l))) else 0).
  (** the coordinate of a position along (a, b) *)
  Definition along (a b : R) (v : nval) : R := a * pos_x v + b * pos_y v.
  Lemma along_set a b v : along a b (val_set v) = along a b v.
  Proof. destruct v; reflexivity. Qed.
  Lemma float_planar w l : inv rob cs w -> In l (g_active (w_graph w)) -> F (n_id (nd w l)) = true -> kind_of (nst (n_data (nd w l))) = KP2 \/ kind_of (nst (n_data (nd w l))) = KL2.
  Proof using Fl.
    intros V I E. apply (gd_act _ (iv_good _ _ _ V)) in I. destruct (In_nth_error _ _ I) as [i G]. destruct (gd_ids _ (iv_good _ _ _ V) i l G) as [_ Id]. rewrite Id in E.
    destruct (proj1 Fl i E) as (v & Hn & Kv). assert (Ks : nth_error (fold_left kinds_after cs []) i = Some (kind_of v)) by (rewrite kinds_nodes; cbn [app]; rewrite nth_error_map, Hn; reflexivity).
    rewrite (tk_kind _ _ _ (iv_tracks _ _ _ V) i l G) in Ks. injection Ks as ->. exact Kv.
  Qed.
  Lemma sway_dot w a b x : inv rob cs w -> dot (g_stateDim (w_graph w)) (sway F a b 0 w) x =
    lsum (g_active (w_graph w)) (fun l => if F (n_id (nd w l)) then a * increments w x l 0%nat + b * increments w x l 1%nat else 0).
  Proof using Fl.
    intros V. pose proof (gd_wf _ (iv_good _ _ _ V)) as Wf. rewrite (dot_below _ _ x (sway F a b 0 w) (pack (ndim w) (g_active (w_graph w)) (increments w x))).
    2:{ intros i _. reflexivity. } 2:{ intros i Hi. symmetry. apply (pack_of_increments w x Wf i Hi). }
    rewrite (wf_state _ Wf). unfold sway. rewrite pack_dot. apply lsum_ext. intros l I. destruct (F (n_id (nd w l))) eqn:E.
    - unfold ndim. destruct (wf_active _ Wf l I) as [L _]. destruct (gd_kind _ (iv_good _ _ _ V) l L) as [-> _]. destruct (float_planar w l V I E) as [K|K]; destruct (nst (n_data (nd w l))); try discriminate; cbn; ring.
    - apply sumn_zero. intros; ring.
  Qed.
  Lemma cx_update w a b dx : inv rob cs w -> dot (g_stateDim (w_graph w)) (sway F a b 0 w) dx = 0 -> cx (along a b) (update_nodes_w w dx) = cx (along a b) w.
  Proof using Fl.
    intros V Z. pose proof (gd_wf _ (iv_good _ _ _ V)) as Wf. destruct (update_nodes_spec w dx) as (K & _). unfold cx. rewrite (sk_graph _ _ K).
    rewrite (sway_dot w a b dx V) in Z. transitivity (lsum (g_active (w_graph w)) (fun l => if F (n_id (nd w l)) then along a b (nst (n_data (nd w l))) else 0) + -1 * lsum (g_active (w_graph w)) (fun l => if F (n_id (nd w l)) then a * increments w dx l 0%nat + b * increments w dx l 1%nat else 0)).
    2:{ rewrite Z. ring. }
    rewrite <- lsum_scal, <- lsum_plus. apply lsum_ext. intros l I. destruct (sk_node _ _ K l) as (-> & _). destruct (F (n_id (nd w l))) eqn:E; [|ring].
    destruct (In_nth_error _ _ I) as [m M]. rewrite (gn_updates w dx m l Wf M). cbn [nst].
    assert (An : is_anchor (nd w l) = false). { destruct (wf_active _ Wf l I) as [_ N]. unfold is_anchor. destruct (n_mode (nd w l)); congruence. }
    unfold increments. rewrite An. destruct (float_planar w l V I E) as [Kd|Kd]; destruct (nst (n_data (nd w l))); try discriminate; unfold along; cbn; ring.
  Qed.
  Lemma cx_nodes f w w' : w_graph w' = w_graph w -> w_nodes w' = w_nodes w -> cx f w' = cx f w.
  Proof. intros E N. unfold cx. rewrite E. apply lsum_ext. intros l _. rewrite (nd_same w' w l N). reflexivity. Qed.
  Lemma centroid_iter lin a b s s' e : exact lin -> inv rob cs (s_w s) -> 0 < s_lambda s -> lm_iter lin s = Some (s', e) -> cx (along a b) (s_w s') = cx (along a b) (s_w s) /\ inv rob cs (s_w s') /\ 0 < s_lambda s'.
  Proof using T Fl NL P NR.
    intros X V La E. pose proof (kk_lm_iter _ _ _ _ E) as KK. destruct (lm_iter_frame _ _ _ _ E) as (SK & _). split; [|split; [eapply inv_skel; eauto|]].
    - unfold lm_iter in E. pose proof (gd_wf _ (iv_good _ _ _ V)) as Wf. destruct (gn_ok lin true s Wf) as (s1 & b0 & Eb & B & E1 & Ew & Ebb & _ & EL1 & Edx & ELa & ETo). rewrite E1 in E.
      destruct (gn_frame _ _ _ _ E1) as (K1 & N1 & _). rewrite chi2_false in E. cbn [with_world s_w update_nodes] in E. change (s_dx (with_world s1 (sync_aux (s_w s1)))) with (s_dx s1) in E.
      set (n := g_stateDim (w_graph (s_w s))) in *. set (x := sway F a b 0 (s_w s)).
      destruct (inv_infos rob cs _ V P NR) as (I1 & I2 & I3). assert (I3' : weights_nonneg (s_w s)) by (intros l I; left; apply I3; auto).
      assert (NS : nonsingular n (s_L s1)).
      { apply (nonsingular_ext n (fun i j => s_L (build_info_adjacency b0) i j + if Nat.eqb i j then s_lambda s else 0)).
        + intros i j Hi _. symmetry. apply EL1; auto.
        + apply damped_nonsingular; auto. intros y. apply (form_psd s b0 y Wf B I1 I2 I3'). }
      assert (Sol : forall i, (i < n)%nat -> sumn n (fun j => s_L s1 i j * s_dx s1 j) = s_b s1 i) by (intros i Hi; rewrite Edx; apply (X n); auto).
      assert (Z : dot n x (s_dx s1) = 0).
      { destruct (sway_system rob cs F T Fl s b0 a b 0 V (no_landmark_apart _) (or_introl eq_refl) B) as (_ & A2 & A3). fold n x in A2, A3. rewrite <- Ebb in A3.
        assert (Q : form n (s_L s1) x (s_dx s1) = 0). { rewrite form_rows. rewrite (dot_below n x _ x (s_b s1)); [|intros i _; reflexivity|intros i Hi; apply Sol; auto]. rewrite dot_comm. exact A3. }
        rewrite (form_ext n (s_L s1) (fun i j => s_L (build_info_adjacency b0) i j + if Nat.eqb i j then s_lambda s else 0)) in Q by (intros i j Hi _; apply EL1; auto).
        rewrite damped_form, A2 in Q. nra. }
      assert (V1 : inv rob cs (s_w s1)) by (eapply inv_skel; [exact V|exact K1|apply kk_refl; auto]).
      destruct (sync_aux_spec (s_w s1)) as (K2 & _ & D2). assert (V2 : inv rob cs (sync_aux (s_w s1))) by (eapply inv_skel; [exact V1|exact K2|apply kk_aux]). set (w2 := sync_aux (s_w s1)) in *.
      assert (C2 : cx (along a b) w2 = cx (along a b) (s_w s)).
      { rewrite <- (cx_nodes (along a b) (s_w s) (s_w s1) (sk_graph _ _ K1) N1). unfold cx. rewrite (sk_graph _ _ K2). apply lsum_ext. intros l I. rewrite D2. destruct (andb _ _); reflexivity. }
      assert (Zw : dot (g_stateDim (w_graph w2)) (sway F a b 0 w2) (s_dx s1) = 0).
      { assert (K12 : skel (s_w s) w2) by (eapply skel_trans; eauto). rewrite (sk_graph _ _ K12). fold n. etransitivity; [|exact Z]. apply dot_below; [|intros i _; reflexivity]. intros i _. unfold x, sway. rewrite (sk_graph _ _ K12).
        assert (Q : ndim w2 = ndim (s_w s)) by (apply FunctionalExtensionality.functional_extensionality; intros l; apply (sk_node _ _ K12 l)). rewrite Q.
        f_equal. apply FunctionalExtensionality.functional_extensionality. intros l. rewrite D2. rewrite (nd_same (s_w s1) (s_w s) l N1). destruct (andb _ _); reflexivity. }
      pose proof (cx_update w2 a b (s_dx s1) V2 Zw) as C3. destruct (update_nodes_spec w2 (s_dx s1)) as (K3 & _ & A3 & _). set (w3 := update_nodes_w w2 (s_dx s1)) in *.
      destruct (chi2_fst w3 true) as [K4 N4]. destruct (chi2 true w3) as [w4 c4]. cbn [fst] in *. assert (C4 : cx (along a b) w4 = cx (along a b) (s_w s)) by (rewrite (cx_nodes _ w3 w4 (sk_graph _ _ K4) N4), C3; exact C2).
      destruct (Rltb _ 0); [|destruct (Rltb _ _)]; injection E as <- <-; cbn [with_world with_lambda s_w]; auto.
      destruct (sync_state_spec w4) as (K5 & _ & D5). rewrite <- C2. unfold cx. rewrite (sk_graph _ _ K5), (sk_graph _ _ K4), (sk_graph _ _ K3). apply lsum_ext. intros l I. rewrite D5.
      assert (Hm : andb (mem l (g_active (w_graph w4))) (l <? length (w_nodes w4))%nat = true).
      { rewrite (sk_graph _ _ K4), (sk_graph _ _ K3), (sk_nlen _ _ K4), (sk_nlen _ _ K3). pose proof (gd_wf _ (iv_good _ _ _ V2)) as Wf2. destruct (wf_active _ Wf2 l I) as [L _]. apply andb_true_intro. split; [apply mem_In; auto | apply Nat.ltb_lt; auto]. }
      rewrite Hm. cbn [node_set_data n_id n_data node_restore nst]. destruct (sk_node _ _ K4 l) as (-> & _). destruct (sk_node _ _ K3 l) as (-> & _). destruct (F _); auto. rewrite along_set. rewrite (nd_same w4 w3 l N4), A3.
      unfold w2. rewrite D2. rewrite (sk_graph _ _ K4), (sk_graph _ _ K3), (sk_nlen _ _ K4), (sk_nlen _ _ K3), (sk_graph _ _ K2), (sk_nlen _ _ K2) in Hm. rewrite Hm. cbn. apply along_set.
    - unfold lm_iter in E. destruct (gn_ok lin true s (gd_wf _ (iv_good _ _ _ V))) as (s1 & b0 & _ & _ & E1 & _ & _ & _ & _ & _ & ELa & _). rewrite E1 in E. rewrite chi2_false in E. cbn [with_world s_w update_nodes] in E.
      destruct (chi2 true _) as [w4 c4]. destruct (Rltb _ 0); [|destruct (Rltb _ _)]; injection E as <- <-; cbn; rewrite ?ELa; try lra. apply lambda_pos. lra.
  Qed.
  Lemma centroid_solve lin a b k la tol s s' : exact lin -> inv rob cs (s_w s) -> solve lin LM k la tol s = Some s' -> cx (along a b) (s_w s') = cx (along a b) (s_w s) /\ inv rob cs (s_w s').
  Proof using T Fl NL P NR.
    intros X V E. unfold solve in E. destruct (optimize_levenberg_marquardt lin k _) as [[s1 j]|] eqn:Q; [|discriminate]. cbn in E. injection E as <-. unfold optimize_levenberg_marquardt in Q. apply lm_loop_spec in Q; [|lia]. destruct Q as (es & e & I & _).
    set (t := with_lambda (with_tol (with_lambda s la) tol) (1 / 100000)) in *. assert (La : 0 < s_lambda t) by (cbn; lra). change (s_w s) with (s_w t) in *. clearbody t. clear s. revert V La. induction I as [q|q q1 q2 e1 es1 H _ IH]; intros V La; auto.
    destruct (centroid_iter lin a b q q1 e1 X V La H) as (C1 & V1 & L1). destruct (IH V1 L1) as [C2 V2]. rewrite C2. auto.
  Qed.
  Lemma cx_total f w : inv rob cs w -> cx f w = total F (number_nodes w) f (state_of w).
  Proof using Fl.
    intros V. unfold cx, total. rewrite !lsum_filter. pose proof (iv_good _ _ _ V) as G. pose proof (gd_wf _ G) as Wf.
    transitivity (lsum (g_nodes (w_graph w)) (fun l => if F (n_id (nd w l)) then f (nst (n_data (nd w l))) else 0)).
    - rewrite <- !(lsum_filter (fun l => F (n_id (nd w l)))). apply lsum_perm. apply NoDup_Permutation; [apply NoDup_filter, (wf_active_nodup _ Wf) | apply NoDup_filter, (gd_nodup _ G) |].
      intros l. rewrite !filter_In. split; intros [A B]; split; auto. apply (gd_act _ G); auto.
      destruct (In_nth_error _ _ A) as [i Gi]. destruct (gd_ids _ G i l Gi) as [_ Id]. rewrite Id in B. apply (float_std rob cs F Fl w i l V Gi B).
    - symmetry. apply lsum_seq_list. intros i l Gi. cbn [Nat.add]. destruct (gd_ids _ G i l Gi) as [_ ->]. unfold state_of, get_node. rewrite Gi. reflexivity.
  Qed.
  Lemma centroid_kept lin k la tol s s' : exact lin -> inv rob cs (s_w s) -> solve lin LM k la tol s = Some s' ->
    total F (number_nodes (s_w s')) pos_x (state_of (s_w s')) = total F (number_nodes (s_w s)) pos_x (state_of (s_w s)) /\ total F (number_nodes (s_w s')) pos_y (state_of (s_w s')) = total F (number_nodes (s_w s)) pos_y (state_of (s_w s)).
  Proof using T Fl NL P NR.
    intros X V E. assert (Q : forall a b, total F (number_nodes (s_w s')) (along a b) (state_of (s_w s')) = total F (number_nodes (s_w s)) (along a b) (state_of (s_w s))).
    { intros a b. destruct (centroid_solve lin a b k la tol s s' X V E) as [C V']. rewrite <- !cx_total; auto. }
    assert (Qx : forall n st, total F n (along 1 0) st = total F n pos_x st) by (intros; apply lsum_ext; intros; unfold along; ring).
    assert (Qy : forall n st, total F n (along 0 1) st = total F n pos_y st) by (intros; apply lsum_ext; intros; unfold along; ring).
    rewrite <- !Qx, <- !Qy. auto.
  Qed.
End Centroid.
(** ** a direction that no factor sees *)
Lemma unseen_singular rob cs s b u (d : nat -> nat -> R) i0 k0 l0 : inv rob cs (s_w s) ->
  (forall i l, get_node (s_w s) i = Some l -> is_anchor (nd (s_w s) l) = true -> forall k, d i k = 0) ->
  (forall c cl ids W, In c cs -> call_factor c = Some (cl, ids, W) -> unseen cl (map (state_of (s_w s)) ids) (map d ids)) ->
  get_node (s_w s) i0 = Some l0 -> (k0 < nval_dim (state_of (s_w s) i0))%nat -> d i0 k0 <> 0 ->
  build_problem u s = Some b -> ~ nonsingular (g_stateDim (w_graph (s_w s))) (s_L b).
Proof.
  intros V An Un G0 K0 D0 Q NS. pose proof (gd_wf _ (iv_good _ _ _ V)) as Wf. destruct (build_wf s Wf) as (b0 & Eb0 & B).
  assert (EL : s_L b = s_L (build_info_adjacency b0)) by (unfold build_problem in Q; rewrite Eb0 in Q; injection Q as <-; destruct u; reflexivity). rewrite EL in NS. clear EL Q.
  set (w := s_w s) in *. set (x := pack (ndim w) (g_active (w_graph w)) (fun l => d (n_id (nd w l)))).
  assert (Inc : forall i l k, get_node w i = Some l -> (k < nval_dim (state_of w i))%nat -> increments w x l k = d i k).
  { intros i l k G K. unfold state_of in K. rewrite G in K. destruct (gd_ids _ (iv_good _ _ _ V) i l G) as [L Id]. unfold increments. destruct (is_anchor (nd w l)) eqn:A; [rewrite (An i l G A); auto|].
    assert (Ia : In l (g_active (w_graph w))). { apply (gd_std _ (iv_good _ _ _ V)). apply (nth_error_In _ _ G). intros M. unfold is_anchor in A. rewrite M in A. discriminate. }
    unfold x, col. rewrite (pack_at (ndim w) _ _ _ l); [|apply index_of_nth; auto|]. rewrite Id. auto. unfold ndim. destruct (gd_kind _ (iv_good _ _ _ V) l L) as [-> _]. exact K. }
  assert (Z : forall l, In l (g_factors (w_graph w)) -> forall i, (i < fdim w l)%nat -> jac_times w l (increments w x) i = 0).
  { intros l I i Hi. pose proof I as I'. rewrite (tk_fac _ _ _ (iv_tracks _ _ _ V)) in I'. apply in_seq in I'.
    destruct (nth_error (flat_map facts cs) l) as [[[cl ids] W]|] eqn:E; [|apply nth_error_None in E; lia]. destruct (jac_times_class rob cs w l cl ids W x i V E) as [_ ->].
    destruct (facts_in _ _ _ _ _ E) as (c & Ic & Fc). destruct (tk_cls _ _ _ (iv_tracks _ _ _ V) l cl ids W E) as (D & _ & _ & Gn). unfold fdim in Hi. rewrite D in Hi. rewrite <- (Un c cl ids W Ic Fc i Hi).
    apply row_dir_ext. intros j k J K. unfold inc_of. destruct (get_node w j) as [lj|] eqn:Gj; [apply Inc; auto|].
    exfalso. clear - Gn J Gj. revert Gn. generalize (f_nodes (fa w l)). induction ids as [|a r IH]; intros ls Gn; [destruct J|]. cbn in Gn. destruct J as [->|J]. rewrite Gj in Gn. discriminate.
    destruct (get_node w a); [|discriminate]. destruct (get_nodes w r) as [q|]; [|discriminate]. apply (IH J q eq_refl). }
  assert (Rows : forall i, (i < g_stateDim (w_graph w))%nat -> sumn (g_stateDim (w_graph w)) (fun j => s_L (build_info_adjacency b0) i j * x j) = 0).
  { intros i Hi. assert (A1 : form (g_stateDim (w_graph w)) (s_L (build_info_adjacency b0)) (unit i) x = 0).
    { unfold form, w. rewrite (normal_matrix s b0 (unit i) x Wf B). apply lsum_zero. intros l I. rewrite quad_zero_r by (apply Z; auto). ring. }
    rewrite form_rows, dot_unit in A1 by auto. exact A1. }
  pose proof (NS x Rows) as X0. apply D0. destruct (gd_ids _ (iv_good _ _ _ V) i0 l0 G0) as [L0 _]. destruct (is_anchor (nd w l0)) eqn:A; [apply (An i0 l0 G0 A)|].
  assert (Ia : In l0 (g_active (w_graph w))). { apply (gd_std _ (iv_good _ _ _ V)). apply (nth_error_In _ _ G0). intros M. unfold is_anchor in A. rewrite M in A. discriminate. }
  destruct (In_nth_error _ _ Ia) as [m M]. rewrite <- (Inc i0 l0 k0 G0 K0). rewrite (below_incr w x (fun _ => 0) m l0 k0 Wf); auto.
  - unfold increments. rewrite A. reflexivity.
  - unfold state_of in K0. rewrite G0 in K0. unfold ndim. destruct (gd_kind _ (iv_good _ _ _ V) l0 L0) as [-> _]. exact K0.
Qed.
Definition only (i : nat) (e : nat -> R) : nat -> nat -> R := fun j => if Nat.eqb j i then e else fun _ => 0.
Lemma only_unseen cl st i e ids : ~ In i ids -> unseen cl (map st ids) (map (only i e) ids).
Proof.
  intros N q _. etransitivity; [|exact (row_dir_zero (fc_jac cl (map st ids) q) ids (map st ids) 0)]. f_equal. apply map_ext_in. intros j J. unfold only. destruct (Nat.eqb_spec j i) as [->|]; [contradiction|reflexivity].
Qed.
Lemma node_std rob cs w i v : inv rob cs w -> nth_error (nodes_of cs) i = Some (STANDARD, v) -> exists l, get_node w i = Some l /\ is_anchor (nd w l) = false /\ kind_of (state_of w i) = kind_of v.
Proof.
  intros V Hn. assert (Ks : nth_error (fold_left kinds_after cs []) i = Some (kind_of v)) by (rewrite kinds_nodes; cbn [app]; rewrite nth_error_map, Hn; reflexivity).
  destruct (state_kind rob cs w i _ V Ks) as (l & G & K & _). exists l. split; auto. split; auto. pose proof (ho_mode _ _ _ _ (iv_holds _ _ _ V) i l G) as M. rewrite Hn in M. cbn in M. injection M as M. unfold is_anchor. rewrite <- M. reflexivity.
Qed.
Lemma only_anchor rob cs w i v e : inv rob cs w -> nth_error (nodes_of cs) i = Some (STANDARD, v) -> forall j l, get_node w j = Some l -> is_anchor (nd w l) = true -> forall k, only i e j k = 0.
Proof.
  intros V Hn j l G A k. unfold only. destruct (Nat.eqb_spec j i) as [->|]; auto. destruct (node_std rob cs w i v V Hn) as (l' & G' & A' & _). congruence.
Qed.
Lemma isolated_singular rob cs s b u i v : inv rob cs (s_w s) -> nth_error (nodes_of cs) i = Some (STANDARD, v) ->
  (forall c cl ids W, In c cs -> call_factor c = Some (cl, ids, W) -> ~ In i ids) -> build_problem u s = Some b -> ~ nonsingular (g_stateDim (w_graph (s_w s))) (s_L b).
Proof.
  intros V Hn Is Q. destruct (node_std rob cs _ i v V Hn) as (l & G & _ & K).
  apply (unseen_singular rob cs s b u (only i (fun _ => 1)) i 0%nat l V (only_anchor rob cs _ i v _ V Hn)); auto.
  - intros c cl ids W Ic Fc. apply only_unseen. eapply Is; eauto.
  - destruct (state_of (s_w s) i); cbn; lia.
  - unfold only. rewrite Nat.eqb_refl. lra.
Qed.
(** turning about the landmark *)
Definition pivot (p : V3) (lx ly : R) : nat -> R :=
  if Rltb ((lx - vx p) * (lx - vx p) + (ly - vy p) * (ly - vy p)) (1 / 1000000) then (fun k => nth k [0; 0; 1] 0) else (fun k => nth k [ly - vy p; - (lx - vx p); 1] 0).
Lemma pivot_unseen r b0 u x lx ly :
  unseen (c_landmark2d r b0 false u) [P2 x; L2 lx ly] [pivot x lx ly; fun _ => 0] /\ unseen (c_landmark2d r b0 true u) [L2 lx ly; P2 x] [fun _ => 0; pivot x lx ly].
Proof.
  unfold pivot. set (dx := lx - vx x) in *. set (dy := ly - vy x) in *. set (q := dx * dx + dy * dy) in *. assert (Eq : q = dx * dx + dy * dy) by reflexivity.
  assert (X : forall q', q' = dx * dx + dy * dy -> jac_landmark2d x lx ly = if Rltb q' (1 / 1000000) then ([[1; 0; 0]; [0; 1; 0]], [[1; 0]; [0; 1]]) else ([[- dx / sqrt q'; - dy / sqrt q'; 0]; [dy / q'; - dx / q'; -1]], [[dx / sqrt q'; dy / sqrt q']; [- dy / q'; dx / q']])) by (intros q' ->; reflexivity).
  specialize (X q Eq). clearbody q. destruct (Rltb q (1 / 1000000)) eqn:L.
  - split; intros i Hi; cbn [c_landmark2d fc_jac fc_dim] in *; rewrite X; cbn [fst snd]; destruct i as [|[|i]]; try lia; cbn; ring.
  - apply Rltb_niff in L. assert (Iq : / q * (dx * dx + dy * dy) = 1) by (rewrite <- Eq; field; lra).
    split; intros i Hi; cbn [c_landmark2d fc_jac fc_dim] in *; rewrite X; cbn [fst snd]; destruct i as [|[|i]]; try lia; cbn; unfold Rdiv; try ring.
    all: match goal with |- ?l = 0 => replace l with (/ q * (dx * dx + dy * dy) - 1) by ring end; rewrite Iq; ring.
Qed.
Lemma one_landmark_singular rob cs s b u i j v : typed [] cs -> inv rob cs (s_w s) -> nth_error (nodes_of cs) i = Some (STANDARD, v) -> kind_of v = KP2 ->
  (forall c cl ids W, In c cs -> call_factor c = Some (cl, ids, W) -> In i ids -> exists r bb W' u', c = CLandmark2d r bb i j W' u') -> build_problem u s = Some b -> ~ nonsingular (g_stateDim (w_graph (s_w s))) (s_L b).
Proof.
  intros T V Hn Kv Un Q. destruct (node_std rob cs _ i v V Hn) as (l & G & _ & K). rewrite Kv in K. destruct (state_of (s_w s) i) as [p| | | |] eqn:Si; try discriminate.
  set (e := match state_of (s_w s) j with L2 lx ly => pivot p lx ly | _ => fun k => nth k [0; 0; 1] 0 end).
  assert (E2 : e 2%nat = 1). { unfold e, pivot. destruct (state_of (s_w s) j); try reflexivity. destruct (Rltb _ _); reflexivity. }
  apply (unseen_singular rob cs s b u (only i e) i 2%nat l V (only_anchor rob cs _ i v _ V Hn)); auto.
  - intros c cl ids W Ic Fc. destruct (in_dec Nat.eq_dec i ids) as [Ii|Ni]; [|apply only_unseen; auto].
    destruct (Un c cl ids W Ic Fc Ii) as (r & bb & W' & u' & ->). pose proof (typed_in cs _ [] T Ic) as Ty. cbn [typed1] in Ty. destruct Ty as [T1 T2].
    destruct (state_kind rob cs _ j _ V T2) as (_ & _ & Kj & _). destruct (state_of (s_w s) j) as [| |lx ly| |] eqn:Sj; try discriminate.
    assert (Nij : j <> i) by (intros ->; congruence). assert (Oi : only i e i = pivot p lx ly) by (unfold only; rewrite Nat.eqb_refl; reflexivity). assert (Oj : only i e j = fun _ => 0) by (unfold only; destruct (Nat.eqb_spec j i); [contradiction|reflexivity]).
    unfold call_factor in Fc. cbn [pycall_op] in Fc. destruct (i <? j)%nat; injection Fc as <- <- <-; cbn [map]; rewrite Si, Sj, Oi, Oj; apply pivot_unseen.
  - rewrite Si. cbn. lia.
  - unfold only. rewrite Nat.eqb_refl, E2. lra.
Qed.
