(** Proofs for C96. *)
Require Import Reals List Arith Lia Lra Bool Sorted Permutation.
From Verif Require Import Lin LinFacts SpecGeom SO3 SE3 Nodes NodesProofs Robust Graph GraphProofs Sums Solve SpecSolve SolveIndex SolveFrame SolveSums SolveBuild SolveProofs Session SessionProofs.
From Verif Require Import Factors SpecFactors FactorsDer FactorsPlanar Factors3D Factors3DLn FactorsMore FactorsSession FrameSolve FrameSession SpecFrame SpecSolvable SolvableFactors SolvableSession MappingSession LMMapping SpecLocate Gauss DenseProofs Reorder SpecChain Chain SpecGrow.
Import ListNotations.
Local Open Scope R_scope.
Local Arguments nd : simpl never.
Local Arguments fa : simpl never.

(** ** sorted lists *)
Lemma sorted_same : forall l l', StronglySorted lt l -> StronglySorted lt l' -> (forall x, In x l <-> In x l') -> l = l'.
Proof.
  induction l as [|a l IH]; intros [|b l'] S S' H; auto.
  - exfalso. apply (proj2 (H b)). left; auto.
  - exfalso. apply (proj1 (H a)). left; auto.
  - inversion S as [|? ? S1 F1]; subst. inversion S' as [|? ? S2 F2]; subst. rewrite Forall_forall in F1, F2.
    assert (a = b) as <-. { destruct (proj1 (H a) (or_introl eq_refl)) as [|Ia]; auto. destruct (proj2 (H b) (or_introl eq_refl)) as [|Ib]; auto. specialize (F1 b Ib). specialize (F2 a Ia). lia. }
    f_equal. apply IH; auto. intros x. split; intros I.
    + destruct (proj1 (H x) (or_intror I)) as [->|]; auto. specialize (F1 x I). lia.
    + destruct (proj2 (H x) (or_intror I)) as [->|]; auto. specialize (F2 x I). lia.
Qed.
Lemma sorted_filter f l : StronglySorted lt l -> StronglySorted lt (filter f l).
Proof.
  intros S. induction S as [|a l S IH F]; [constructor|]. cbn. destruct (f a); auto. constructor; auto. rewrite Forall_forall in *. intros x I. apply filter_In in I. apply F, I.
Qed.
Lemma sorted_cut N l : StronglySorted lt l -> l = filter (fun x => x <? N)%nat l ++ filter (fun x => negb (x <? N)%nat) l.
Proof.
  intros S. induction S as [|a l S IH F]; [reflexivity|]. cbn [filter]. destruct (Nat.ltb_spec a N); cbn [negb app]. { f_equal. exact IH. }
  rewrite Forall_forall in F. assert (Z : filter (fun x => x <? N)%nat l = []). { clear - F H. induction l as [|b l IH]; [reflexivity|]. cbn [filter]. destruct (Nat.ltb_spec b N); [specialize (F b (or_introl eq_refl)); lia|]. apply IH. intros x I. apply F. right; auto. }
  rewrite Z. cbn [app]. f_equal. rewrite Z in IH. exact IH.
Qed.
(** ** the measurements of a session *)
Lemma facts_measures cs : flat_map facts cs = flat_map facts (filter measures cs).
Proof.
  induction cs as [|c cs IH]; [reflexivity|]. cbn [flat_map filter]. unfold measures at 1, facts at 1. destruct (call_factor c) as [f|] eqn:E; cbn [app flat_map]; rewrite IH; [|reflexivity]. unfold facts at 2. rewrite E. reflexivity.
Qed.
Lemma own_loc rob cs w i : inv rob cs w -> in_order w -> (i < length (nodes_of cs))%nat -> get_node w i = Some i.
Proof.
  intros V O H. destruct (nth_error (nodes_of cs) i) as [[m v]|] eqn:E; [|apply nth_error_None in E; lia]. destruct (mode_of rob cs w i m v V E) as (l & G & _).
  pose proof G as G2. unfold get_node in G2. rewrite (io_nodes _ O) in G2. apply seq_at in G2. cbn in G2. congruence.
Qed.
Lemma own_dim rob cs w i : inv rob cs w -> in_order w -> (i < length (nodes_of cs))%nat -> ndim w i = nval_dim (state_of w i).
Proof.
  intros V O H. pose proof (own_loc rob cs w i V O H) as G. destruct (gd_ids _ (iv_good _ _ _ V) i i G) as [L _]. unfold ndim. destruct (gd_kind _ (iv_good _ _ _ V) i L) as [-> _]. unfold state_of. rewrite G. reflexivity.
Qed.
Lemma own_active rob cs w i : inv rob cs w -> in_order w -> (In i (g_active (w_graph w)) <-> exists v, nth_error (map shape (nodes_of cs)) i = Some v /\ fst v <> ANCHOR).
Proof.
  intros V O. split.
  - intros I. destruct (act_in rob cs w V i I) as (j & G & Id & Hj & _). rewrite (own_loc rob cs w j V O Hj) in G. injection G as ->.
    assert (J : In i (act_ids w)) by (unfold act_ids; apply in_map_iff; exists i; auto). apply (act_iff rob cs w V) in J. destruct J as (m & v & E & NA). exists (m, kind_of v). split; auto. rewrite nth_error_map, E. reflexivity.
  - intros (v & E & NA). rewrite nth_error_map in E. destruct (nth_error (nodes_of cs) i) as [[m x]|] eqn:Ei; [|discriminate]. injection E as <-. cbn in NA.
    assert (H : (i < length (nodes_of cs))%nat) by (apply nth_error_Some; congruence). destruct (standard_active rob cs w i m x i V Ei NA (own_loc rob cs w i V O H)) as [a A]. eapply nth_error_In; eauto.
Qed.
Lemma facts_bound rob cs w cl ids W : inv rob cs w -> In (cl, ids, W) (flat_map facts cs) -> Forall (fun i => (i < length (nodes_of cs))%nat) ids.
Proof.
  intros V I. destruct (In_nth_error _ _ I) as [k E]. destruct (tk_cls _ _ _ (iv_tracks _ _ _ V) k cl ids W E) as (_ & _ & _ & G). pose proof (tk_len _ _ _ (iv_tracks _ _ _ V)) as L. rewrite kinds_nodes in L. cbn [app] in L. rewrite map_length in L. rewrite <- L. clear - G.
  revert G. generalize (f_nodes (fa w k)). induction ids as [|i ids IH]; intros ls G; constructor; cbn in G; destruct (get_node w i) as [l|] eqn:Gi; try discriminate; destruct (get_nodes w ids) as [r|] eqn:Gr; try discriminate.
  - apply nth_error_Some. unfold get_node in Gi. congruence.
  - apply (IH r). auto.
Qed.
Lemma row_dir_ext row (st : nat -> nval) (d e : nat -> nat -> R) ids : (forall j k, In j ids -> (k < nval_dim (st j))%nat -> d j k = e j k) -> forall off, row_dir row off (map st ids) (map d ids) = row_dir row off (map st ids) (map e ids).
Proof.
  induction ids as [|i ids IH]; intros H off; [reflexivity|]. cbn [map row_dir]. rewrite IH by (intros j k I; apply H; right; auto). f_equal. apply sumn_ext. intros k Hk. rewrite (H i k (or_introl eq_refl) Hk). reflexivity.
Qed.
Lemma f_jd_ext st d e cl ids a : (forall j k, In j ids -> (k < nval_dim (st j))%nat -> d j k = e j k) -> f_jd st d cl ids a = f_jd st e cl ids a.
Proof. intros H. apply row_dir_ext; auto. Qed.
Lemma f_jd_state st st' d cl ids a : (forall j, In j ids -> st j = st' j) -> f_jd st d cl ids a = f_jd st' d cl ids a.
Proof. intros H. unfold f_jd. rewrite (map_ext_in st st' ids H). reflexivity. Qed.
Lemma f_f_ext rob st st' d d' e e' f : (forall j, In j (snd (fst f)) -> st j = st' j) -> (forall j k, In j (snd (fst f)) -> (k < nval_dim (st j))%nat -> d j k = d' j k) -> (forall j k, In j (snd (fst f)) -> (k < nval_dim (st j))%nat -> e j k = e' j k) ->
  f_f rob st d e f = f_f rob st' d' e' f.
Proof.
  destruct f as [[cl ids] W]. cbn [fst snd]. intros S D E. unfold f_f, f_w, f_c. rewrite (map_ext_in st st' ids S). f_equal. apply quad_ext; intros i _.
  - rewrite (f_jd_ext st d d' cl ids i D). apply f_jd_state; auto.
  - rewrite (f_jd_ext st e e' cl ids i E). apply f_jd_state; auto.
Qed.
Lemma row_dir_sum row (st : nat -> nval) m (c : nat -> R) (D : nat -> nat -> nat -> R) ids : forall off,
  row_dir row off (map st ids) (map (fun j k => sumn m (fun l => c l * D l j k)) ids) = sumn m (fun l => c l * row_dir row off (map st ids) (map (D l) ids)).
Proof.
  induction ids as [|i ids IH]; intros off. { cbn. symmetry. apply sumn_zero. intros; ring. } cbn [map row_dir]. rewrite IH.
  transitivity (sumn m (fun l => sumn (nval_dim (st i)) (fun k => c l * (row (off + k)%nat * D l i k))) + sumn m (fun l => c l * row_dir row (off + nval_dim (st i)) (map st ids) (map (D l) ids))).
  - f_equal. rewrite sumn_swap. apply sumn_ext. intros k _. rewrite sumn_mult_l. apply sumn_ext. intros; ring.
  - rewrite <- sumn_plus. apply sumn_ext. intros l _. rewrite <- sumn_mult_l. ring.
Qed.
Lemma f_w_pos rob st f : rob <> RANSAC -> 0 < f_w rob st f.
Proof.
  intros NR. unfold f_w. set (u := sqrt _). assert (U : 0 <= u) by apply sqrt_pos. clearbody u. destruct rob; cbn; try congruence; unfold Rltb.
  all: try destruct (Rlt_dec u 1); try lra; repeat apply Rdiv_lt_0_compat; nra.
Qed.

(** ** a session and what it has grown to *)
Section Grown.
Variables (rob : robust_type) (cs cs' : list pycall) (w w' : world) (ex : list (node_mode * kind)) (more : list pycall).
Hypothesis (V : inv rob cs w) (V' : inv rob cs' w') (O : in_order w) (O' : in_order w') (G : grown cs cs' ex more).
Hypothesis (P : Forall call_info cs) (P' : Forall call_info cs') (NR : rob <> RANSAC).
Hypothesis (Same : forall i, (i < length (nodes_of cs))%nat -> state_of w' i = state_of w i).
Notation N := (length (nodes_of cs)).
Notation n := (g_stateDim (w_graph w)).
Notation n' := (g_stateDim (w_graph w')).
Lemma grown_len : (N <= length (nodes_of cs'))%nat.
Proof using G. destruct G as [A _]. apply (f_equal (@length _)) in A. rewrite app_length, !map_length in A. lia. Qed.
Lemma grown_active : g_active (w_graph w') = g_active (w_graph w) ++ filter (fun x => negb (x <? N)%nat) (g_active (w_graph w')).
Proof using V V' O O' G.
  rewrite (sorted_cut N (g_active (w_graph w')) (io_sorted _ O')) at 1. f_equal. apply sorted_same.
  - apply sorted_filter, (io_sorted _ O').
  - apply (io_sorted _ O).
  - intros x. rewrite filter_In, (own_active rob cs' w' x V' O'), (own_active rob cs w x V O). destruct G as [A _]. rewrite A. split.
    + intros [(v & E & NA) L]. apply Nat.ltb_lt in L. exists v. split; auto. rewrite nth_error_app1 in E by (rewrite map_length; auto). exact E.
    + intros (v & E & NA). assert (L : (x < N)%nat) by (rewrite <- (map_length shape); apply nth_error_Some; congruence). split; [|apply Nat.ltb_lt; auto]. exists v. split; auto. rewrite nth_error_app1 by (rewrite map_length; auto). exact E.
Qed.
Lemma grown_ndim i : (i < N)%nat -> ndim w' i = ndim w i.
Proof using V V' O O' G Same. intros H. pose proof grown_len. rewrite (own_dim rob cs' w' i), (own_dim rob cs w i), Same by (auto; lia). reflexivity. Qed.
Lemma active_below l : In l (g_active (w_graph w)) -> (l < N)%nat.
Proof using V O. intros I. apply (own_active rob cs w l V O) in I. destruct I as (v & E & _). rewrite <- (map_length shape). apply nth_error_Some. congruence. Qed.
Lemma grown_before m : (m <= length (g_active (w_graph w)))%nat -> col w' m = col w m.
Proof using V V' O O' G Same.
  intros H. unfold col, before. rewrite grown_active, firstn_app. replace (m - length (g_active (w_graph w)))%nat with 0%nat by lia. cbn [firstn]. rewrite app_nil_r. f_equal. apply map_ext_in. intros l I. apply grown_ndim, active_below. clear - I. rewrite <- (firstn_skipn m). apply in_app_iff. auto.
Qed.
Lemma grown_dim : n' = (n + lsumn (map (ndim w') (filter (fun x => negb (x <? N)%nat) (g_active (w_graph w')))))%nat.
Proof using V V' O O' G Same.
  rewrite (wf_state _ (gd_wf _ (iv_good _ _ _ V'))), (wf_state _ (gd_wf _ (iv_good _ _ _ V))). rewrite grown_active at 1. rewrite map_app, lsumn_app. f_equal. f_equal. apply map_ext_in. intros l I. apply grown_ndim, active_below, I.
Qed.
Lemma grown_inc x i k : (i < N)%nat -> (k < nval_dim (state_of w i))%nat -> inc_of w' x i k = inc_of w x i k.
Proof using V V' O O' G Same.
  intros H Hk. pose proof grown_len as GL. unfold inc_of. rewrite (own_loc rob cs w i V O H), (own_loc rob cs' w' i V' O' ltac:(lia)).
  destruct (nth_error (nodes_of cs) i) as [[m v]|] eqn:E; [|apply nth_error_None in E; lia]. destruct (mode_of rob cs w i m v V E) as (l & Gl & Ml & _). rewrite (own_loc rob cs w i V O H) in Gl. injection Gl as <-.
  assert (E' : exists v', nth_error (nodes_of cs') i = Some (m, v')).
  { destruct G as [A _]. assert (Q : nth_error (map shape (nodes_of cs')) i = Some (m, kind_of v)) by (rewrite A, nth_error_app1, nth_error_map, E by (rewrite map_length; auto); reflexivity). rewrite nth_error_map in Q. destruct (nth_error (nodes_of cs') i) as [[m' v']|]; [|discriminate]. injection Q as -> _. eauto. }
  destruct E' as [v' E']. destruct (mode_of rob cs' w' i m v' V' E') as (l & Gl & Ml' & _). rewrite (own_loc rob cs' w' i V' O' ltac:(lia)) in Gl. injection Gl as <-.
  assert (X : m = ANCHOR \/ m <> ANCHOR) by (destruct m; auto; right; discriminate). destruct X as [->|NA]. { unfold increments, is_anchor. rewrite Ml, Ml'. reflexivity. }
  destruct (standard_active rob cs w i m v i V E NA (own_loc rob cs w i V O H)) as [a Ha]. assert (La : (a < length (g_active (w_graph w)))%nat) by (apply nth_error_Some; congruence).
  assert (Ha' : nth_error (g_active (w_graph w')) a = Some i) by (rewrite grown_active, nth_error_app1; auto).
  rewrite (increments_at w x a i k (gd_wf _ (iv_good _ _ _ V)) Ha), (increments_at w' x a i k (gd_wf _ (iv_good _ _ _ V')) Ha'), grown_before by lia. reflexivity.
Qed.
Lemma grown_form x y : gn_form w' x y = gn_form w x y + lsum (flat_map facts more) (f_f rob (state_of w') (inc_of w' x) (inc_of w' y)).
Proof using V V' O O' G P P' NR Same.
  rewrite (facts_form rob cs w V P NR), (facts_form rob cs' w' V' P' NR). destruct G as [_ Pm]. rewrite (facts_measures cs'), (lsum_perm _ _ _ (Permutation_flat_map facts Pm)), flat_map_app, lsum_app, <- facts_measures. f_equal. apply lsum_ext. intros [[cl ids] W] I.
  pose proof (facts_bound rob cs w cl ids W V I) as B. rewrite Forall_forall in B. apply f_f_ext; cbn [fst snd].
  - intros j J. apply Same, B, J.
  - intros j k J Hk. apply grown_inc; [apply B, J|]. rewrite <- (Same j) by (apply B, J). exact Hk.
  - intros j k J Hk. apply grown_inc; [apply B, J|]. rewrite <- (Same j) by (apply B, J). exact Hk.
Qed.
Lemma more_nonneg x : 0 <= lsum (flat_map facts more) (f_f rob (state_of w') (inc_of w' x) (inc_of w' x)).
Proof using G P' NR.
  apply lsum_nonneg. intros [[cl ids] W] I. unfold f_f. apply Rmult_le_pos; [apply Rlt_le, f_w_pos, NR|]. apply in_flat_map in I. destruct I as (c & Ic & If). destruct G as [_ Pm].
  assert (Ic' : In c cs'). { apply (filter_In measures). apply (Permutation_in _ (Permutation_sym Pm)). apply in_app_iff. auto. }
  rewrite Forall_forall in P'. specialize (P' c Ic'). unfold call_info in P'. unfold facts in If. destruct (call_factor c) as [[[cl0 ids0] W0]|]; [|destruct If]. destruct If as [If|[]]. injection If as -> -> ->. apply P'.
Qed.
End Grown.

(** ** inverses *)
Lemma inverse_exists m L : nonsingular m L -> exists C, inverse_of m L C.
Proof. intros NS. exists (fun i j => gauss m L (fun k => if Nat.eqb k j then 1 else 0) i). intros i j Hi Hj. apply (gauss_exact m L (fun k => if Nat.eqb k j then 1 else 0) NS i Hi). Qed.
Lemma inverse_nonsingular m L C : (forall x y, form m L x y = form m L y x) -> inverse_of m L C -> nonsingular m L.
Proof.
  intros S I x Z i Hi. assert (F : form m L x (fun k => C k i) = x i).
  { rewrite form_rows. unfold dot. rewrite <- (dot_unit m x i Hi). apply sumn_ext. intros k Hk. rewrite (I k i Hk Hi). ring. }
  rewrite <- F, S, form_rows. unfold dot. apply sumn_zero. intros k Hk. rewrite Z by auto. ring.
Qed.
(** [x' L (C v) = x' v] *)
Lemma inverse_form m L C x v : inverse_of m L C -> form m L x (fun i => sumn m (fun j => C i j * v j)) = dot m x v.
Proof.
  intros I. rewrite form_rows. unfold dot. apply sumn_ext. intros i Hi. f_equal. rewrite <- (dot_unit m v i Hi).
  transitivity (sumn m (fun k => sumn m (fun j => L i k * (C k j * v j)))). { apply sumn_ext. intros k _. rewrite sumn_mult_l. reflexivity. }
  rewrite sumn_swap. apply sumn_ext. intros j Hj. rewrite Nat.eqb_sym, <- (I i j Hi Hj), sumn_mult_r. apply sumn_ext. intros; ring.
Qed.
Lemma quad_apply m C v : quad m C v v = dot m v (fun i => sumn m (fun j => C i j * v j)).
Proof. unfold quad, dot. apply sumn_ext. intros i _. rewrite sumn_mult_l. apply sumn_ext. intros; ring. Qed.
Lemma form_expand m L x y t : form m L (fun i => x i + y i * t) (fun i => x i + y i * t) = form m L x x + t * form m L x y + t * form m L y x + t * t * form m L y y.
Proof.
  transitivity (quad m L x x + quad m L x (fun i => y i * t) + (quad m L (fun i => y i * t) x + quad m L (fun i => y i * t) (fun i => y i * t))).
  - rewrite form_quad, quad_plus_l, !quad_plus_r. reflexivity.
  - rewrite DenseProofs.quad_scal_r, (DenseProofs.quad_scal_l m L t y x), (DenseProofs.quad_scal_l m L t y), DenseProofs.quad_scal_r. change form with quad. ring.
Qed.
Lemma form_kernel m L x : (forall x y, form m L x y = form m L y x) -> (forall x, 0 <= form m L x x) -> form m L x x = 0 -> forall i, (i < m)%nat -> sumn m (fun j => L i j * x j) = 0.
Proof.
  intros S P Z. assert (K : forall y, form m L x y = 0).
  { intros y. set (a := form m L x y). set (c := form m L y y). assert (C : 0 <= c) by apply P. set (t := - a / (c + 1)).
    pose proof (P (fun i => x i + y i * t)) as Q. rewrite form_expand, Z, (S y x) in Q. fold a c in Q.
    assert (E : 0 + t * a + t * a + t * t * c = - (a * a * ((c + 2) / ((c + 1) * (c + 1))))) by (unfold t; field; lra).
    assert (0 < (c + 2) / ((c + 1) * (c + 1))) by (apply Rdiv_lt_0_compat; nra). assert (a * a <= 0) by (apply Rnot_lt_le; intros A; assert (0 < a * a * ((c + 2) / ((c + 1) * (c + 1)))) by (apply Rmult_lt_0_compat; auto); lra). nra. }
  intros i Hi. specialize (K (fun k => if Nat.eqb k i then 1 else 0)). rewrite S, form_rows in K. unfold dot in K. rewrite dot_unit in K by auto. exact K.
Qed.
Definition cut (n : nat) (v : nat -> R) (p : nat) : R := if (p <? n)%nat then v p else 0.
Lemma dot_cut n r x v : dot (n + r) x (cut n v) = dot n x v.
Proof.
  unfold dot. rewrite sumn_app, (sumn_zero r); [rewrite Rplus_0_r; apply sumn_ext|]; intros i Hi; unfold cut.
  - apply Nat.ltb_lt in Hi. rewrite Hi. reflexivity.
  - destruct (Nat.ltb_spec (n + i) n); [lia|ring].
Qed.
Lemma apply_cut n r (C : nat -> nat -> R) v i : sumn (n + r) (fun j => C i j * cut n v j) = sumn n (fun j => C i j * v j).
Proof. exact (dot_cut n r (fun j => C i j) v). Qed.
(** adding a positive form does not increase the inverse *)
Lemma inverse_shrinks n r L L' C C' : (forall x y, form n L x y = form n L y x) -> (forall x, 0 <= form n L x x) -> (forall x, form n L x x <= form (n + r) L' x x) ->
  inverse_of n L C -> inverse_of (n + r) L' C' -> forall v, quad n C' v v <= quad n C v v.
Proof.
  intros S P M I I' v. rewrite !quad_apply. set (y := fun i => sumn n (fun j => C i j * v j)). set (y' := fun i => sumn (n + r) (fun j => C' i j * cut n v j)).
  assert (E' : dot n v (fun i => sumn n (fun j => C' i j * v j)) = dot n v y') by (unfold dot, y'; apply sumn_ext; intros i _; rewrite apply_cut; reflexivity). rewrite E'. clear E'.
  assert (Cm : forall a b, dot n a b = dot n b a) by (intros a b; unfold dot; apply sumn_ext; intros; ring).
  assert (F : forall x, form n L x y = dot n x v) by (intros x; apply inverse_form; auto). assert (F' : forall x, form (n + r) L' x y' = dot n x v) by (intros x; unfold y'; rewrite inverse_form, dot_cut by auto; reflexivity).
  pose proof (P (fun i => y i + y' i * -1)) as Q. rewrite form_expand, (S y y'), !F in Q.
  specialize (M y'). rewrite F' in M. rewrite (Cm v y'), (Cm v y). lra.
Qed.
(** a form that ties the new coordinates to the old ones leaves the inverse as it is *)
Lemma inverse_stays n r L L' C C' : (forall x y, form n L x y = form n L y x) -> inverse_of n L C -> inverse_of (n + r) L' C' ->
  (forall y, (forall x, (forall p, (p < n)%nat -> x p = 0) -> form (n + r) L' x y = 0) -> forall x, form (n + r) L' x y = form n L x y) -> forall p q, (p < n)%nat -> (q < n)%nat -> C' p q = C p q.
Proof.
  intros S I I' T p q Hp Hq. set (y := fun i => C' i q). assert (F' : forall x, form (n + r) L' x y = x q).
  { intros x. rewrite form_rows. unfold dot. rewrite <- (dot_unit (n + r) x q) by lia. apply sumn_ext. intros k Hk. unfold y. rewrite (I' k q Hk) by lia. ring. }
  assert (F : forall x, form n L x y = x q) by (intros x; rewrite <- T, F'; auto; intros z Z; rewrite F'; auto).
  assert (D : forall j x, (j < n)%nat -> form n L x (fun i => C i j) = x j). { intros j x Hj. rewrite form_rows. unfold dot. rewrite <- (dot_unit n x j) by lia. apply sumn_ext. intros k Hk. rewrite (I k j Hk) by lia. ring. }
  transitivity (C q p).
  - change (y p = C q p). rewrite <- (D p y Hp), S, F. reflexivity.
  - rewrite <- (D q (fun i => C i p) Hq), S, (D p) by auto. reflexivity.
Qed.

(** ** a new node tied to an old one by one measurement *)
Lemma leaf_sees cs st c i N cl ids W : typed [] cs -> In c cs -> Forall solid_call cs -> (forall j k, nth_error (fold_left kinds_after cs []) j = Some k -> kind_of (st j) = k) -> (forall j T, st j = P3 T -> solid T) ->
  hangs [c] i N -> call_factor c = Some (cl, ids, W) -> i <> N -> fc_dim cl = nval_dim (st N) /\ positive (fc_dim cl) W /\ (forall j, In j ids <-> j = i \/ j = N) /\
    forall d, none_below (nval_dim (st i)) (d i) -> (forall a, (a < fc_dim cl)%nat -> f_jd st d cl ids a = 0) -> none_below (nval_dim (st N)) (d N).
Proof.
  intros T I So K Fs H Fc NE. pose proof (typed_in cs _ [] T I) as Ty. rewrite Forall_forall in So. specialize (So c I). unfold f_jd.
  assert (Two : forall (x y j : nat), In j [x; y] <-> j = x \/ j = y) by (intros x y j; cbn; intuition).
  assert (Two' : forall (x y j : nat), In j [x; y] <-> j = y \/ j = x) by (intros x y j; cbn; intuition).
  destruct H as [obs a b W0 u Ic Po|obs a b W0 u Ic Po|obs a b W0 Ic Po|obs a b W0 Ic Po|obs a b W0 u Ic Po|obs a b W0 u Ic Po|r b0 a b W0 u Ic Po|obs a b W0 u Ic Po|obs a b W0 Ic Po]; destruct Ic as [->|[]]; cbn [typed1] in Ty; unfold call_factor in Fc; cbn [pycall_op] in Fc.
  1,2: destruct Ty as (_ & Ti & Tj); apply K in Ti; apply K in Tj; destruct (a <? b)%nat; injection Fc as <- <- <-; cbn [map]; destruct (st a), (st b); try discriminate; (split; [reflexivity|]); (split; [exact Po|]); (split; [auto|]); intros d D U; first [exact (proj1 (hold_2poses2d _ _ _ _ _ _ U) D) | exact (proj2 (hold_2poses2d _ _ _ _ _ _ U) D)].
  1,2: destruct Ty as (_ & Ti & Tj); apply K in Ti; apply K in Tj; destruct (a <? b)%nat; injection Fc as <- <- <-; cbn [map]; destruct (st a), (st b); try discriminate; (split; [reflexivity|]); (split; [exact Po|]); (split; [auto|]); intros d D U; first [exact (proj1 (hold_odom _ _ _ _ _ _ U) D) | exact (proj2 (hold_odom _ _ _ _ _ _ U) D)].
  1,2: destruct Ty as (_ & Ti & Tj); apply K in Ti; apply K in Tj; cbn [solid_call] in So; pose proof (Fs a) as Fa; pose proof (Fs b) as Fb; destruct (a <? b)%nat; injection Fc as <- <- <-; cbn [map]; destruct (st a), (st b); try discriminate; (split; [reflexivity|]); (split; [exact Po|]); (split; [auto|]); intros d D U; first [exact (proj1 (hold_2poses3d _ _ _ _ _ _ So (Fa _ eq_refl) (Fb _ eq_refl) U) D) | exact (proj1 (hold_2poses3d _ _ _ _ _ _ So (Fb _ eq_refl) (Fa _ eq_refl) U) D) | exact (proj2 (hold_2poses3d _ _ _ _ _ _ So (Fa _ eq_refl) (Fb _ eq_refl) U) D) | exact (proj2 (hold_2poses3d _ _ _ _ _ _ So (Fb _ eq_refl) (Fa _ eq_refl) U) D)].
  - destruct Ty as (Ti & Tj); apply K in Ti; apply K in Tj; destruct (a <? b)%nat; injection Fc as <- <- <-; cbn [map]; destruct (st a), (st b); try discriminate; (split; [reflexivity|]); (split; [exact Po|]); (split; [auto|]); intros d D U; [eapply hold_landmark2d|eapply hold_landmark2d_rev]; eauto.
  - destruct Ty as (Ti & Tj); apply K in Ti; apply K in Tj; pose proof (Fs a) as Fa; destruct (a <? b)%nat; injection Fc as <- <- <-; cbn [map]; destruct (st a), (st b); try discriminate; (split; [reflexivity|]); (split; [exact Po|]); (split; [auto|]); intros d D U; [eapply hold_landmark3d|eapply hold_landmark3d_rev]; eauto.
  - destruct Ty as (Ti & Tj); apply K in Ti; apply K in Tj; pose proof (Fs a) as Fa; destruct (a <? b)%nat; injection Fc as <- <- <-; cbn [map]; destruct (st a), (st b); try discriminate; (split; [reflexivity|]); (split; [exact Po|]); (split; [auto|]); intros d D U; [eapply hold_plane|eapply hold_plane_rev]; eauto.
Qed.
(** such a measurement can be met by moving the new node only *)
Lemma leaf_meets st cl ids i N m r : fc_dim cl = m -> nval_dim (st N) = m -> i <> N -> (forall j, In j ids <-> j = i \/ j = N) ->
  (forall d, none_below (nval_dim (st i)) (d i) -> (forall a, (a < m)%nat -> f_jd st d cl ids a = 0) -> none_below m (d N)) ->
  exists e : nat -> R, forall d, none_below (nval_dim (st i)) (d i) -> (forall k, (k < m)%nat -> d N k = e k) -> forall a, (a < m)%nat -> f_jd st d cl ids a = r a.
Proof.
  intros Dc Dn NE Hi See. set (D := fun l j k => if Nat.eqb j N then if Nat.eqb k l then 1 else 0 else 0). set (M := fun a l => f_jd st (D l) cl ids a).
  assert (Li : forall c d, none_below (nval_dim (st i)) (d i) -> (forall k, (k < m)%nat -> d N k = c k) -> forall a, f_jd st d cl ids a = sumn m (fun l => M a l * c l)).
  { intros c d Zd Ed a. transitivity (f_jd st (fun j k => sumn m (fun l => c l * D l j k)) cl ids a).
    - apply f_jd_ext. intros j k J Hk. apply Hi in J. unfold D. destruct J as [->| ->].
      + apply Nat.eqb_neq in NE. rewrite NE, (Zd k Hk). symmetry. apply sumn_zero. intros; ring.
      + rewrite Nat.eqb_refl. rewrite Dn in Hk. rewrite (Ed k Hk), (sumn_single m k _ Hk). { rewrite Nat.eqb_refl. ring. } intros l _ Nl. destruct (Nat.eqb_spec k l); [congruence|ring].
    - unfold f_jd. rewrite row_dir_sum. apply sumn_ext. intros l _. unfold M, f_jd. ring. }
  assert (NS : nonsingular m M).
  { intros c Z. intros k Hk.
    assert (Zd : none_below (nval_dim (st i)) ((fun j k => sumn m (fun l => c l * D l j k)) i)). { intros q _. apply sumn_zero. intros l _. unfold D. apply Nat.eqb_neq in NE. rewrite NE. ring. }
    assert (Ed : forall q, (q < m)%nat -> (fun j k => sumn m (fun l => c l * D l j k)) N q = c q). { intros q Hq. cbv beta. unfold D. rewrite Nat.eqb_refl. rewrite (sumn_single m q _ Hq). { rewrite Nat.eqb_refl. ring. } intros l _ Nl. destruct (Nat.eqb_spec q l); [congruence|ring]. }
    rewrite <- (Ed k Hk). refine (See _ Zd _ k Hk). intros a Ha. rewrite (Li c _ Zd Ed). apply Z; auto. }
  exists (gauss m M r). intros d Zd Ed a Ha. rewrite (Li (gauss m M r)); auto. apply (gauss_exact m M r NS a Ha).
Qed.
(** ** sessions *)
Lemma build_forms lin rob cs s : typed [] cs -> Forall call_info cs -> rob <> RANSAC -> pycalls lin rob (solver_new world_new) cs = Some s ->
  exists b, build_problem false s = Some b /\ inv rob cs (s_w s) /\ in_order (s_w s) /\ (Forall solid_call cs -> firm (s_w s)) /\
    (forall x y, form (g_stateDim (w_graph (s_w s))) (s_L b) x y = gn_form (s_w s) x y) /\
    (forall x y, form (g_stateDim (w_graph (s_w s))) (s_L b) x y = form (g_stateDim (w_graph (s_w s))) (s_L b) y x) /\ (forall x, 0 <= form (g_stateDim (w_graph (s_w s))) (s_L b) x x).
Proof.
  intros Ty P NR E. destruct (session_inv lin rob cs Ty) as (s0 & E0 & V & Fi). rewrite E in E0. injection E0 as <-.
  assert (O : in_order (s_w s)). { apply (in_order_run lin rob (map pycall_op cs) (solver_new world_new)); [|exact E]. constructor; cbn; auto. constructor. intros l []. }
  pose proof (gd_wf _ (iv_good _ _ _ V)) as Wf. destruct (build_wf s Wf) as (b0 & Eb & B). exists (build_info_adjacency b0). unfold build_problem. rewrite Eb. split; [reflexivity|]. split; auto. split; auto. split; auto.
  assert (F : forall x y, form (g_stateDim (w_graph (s_w s))) (s_L (build_info_adjacency b0)) x y = gn_form (s_w s) x y) by (intros x y; apply (normal_matrix s b0 x y Wf B)).
  assert (Pr : forall cl ids W, In (cl, ids, W) (flat_map facts cs) -> proper (fc_dim cl) W).
  { intros cl ids W I. apply in_flat_map in I. destruct I as (c & Ic & If). rewrite Forall_forall in P. specialize (P c Ic). unfold call_info in P. unfold facts in If. destruct (call_factor c) as [[[cl' ids'] W']|]; [|destruct If]. destruct If as [If|[]]. injection If as -> -> ->. exact P. }
  split; auto. split.
  - intros x y. rewrite !F, !(facts_form rob cs (s_w s) V P NR). apply lsum_ext. intros [[cl ids] W] I. unfold f_f. f_equal. apply quad_comm, (Pr cl ids W I).
  - intros x. rewrite F, (facts_form rob cs (s_w s) V P NR). apply lsum_nonneg. intros [[cl ids] W] I. unfold f_f. apply Rmult_le_pos; [apply Rlt_le, f_w_pos, NR|]. apply (Pr cl ids W I).
Qed.
Lemma stays_nonsingular n r L L' : (forall x y, form n L x y = form n L y x) -> (forall x, 0 <= form n L x x) -> nonsingular n L -> (forall x, form n L x x <= form (n + r) L' x x) ->
  forall x, (forall i, (i < n + r)%nat -> sumn (n + r) (fun j => L' i j * x j) = 0) -> form (n + r) L' x x = 0 /\ forall i, (i < n)%nat -> x i = 0.
Proof.
  intros S P NS M x Z. assert (F : form (n + r) L' x x = 0) by (rewrite form_rows; unfold dot; apply sumn_zero; intros i Hi; rewrite Z by auto; ring). split; auto.
  apply NS, form_kernel; auto. specialize (M x). specialize (P x). lra.
Qed.
