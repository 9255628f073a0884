(** Proofs for C97: a branch of new nodes. *)
Require Import Reals List Arith Lia Lra Bool Sorted Permutation.
From Verif Require Import Lin LinFacts SpecGeom SO3 SE3 SO3Misc SE3Alg Nodes NodesProofs Robust Graph GraphProofs Sums Solve SpecSolve SolveIndex SolveFrame SolveSums SolveBuild SolveProofs Session SessionProofs.
From Verif Require Import Factors SpecFactors FactorsDer FactorsPlanar Factors3D Factors3DLn FactorsMore FactorsSession FrameSolve SpecFrame SpecSolvable SolvableFactors SolvableSession MappingSession LMMapping DenseProofs FrameFactors Reorder ReorderSolve SpecLocate SpecChain Chain SpecGrow Grow SpecBranch.
Import ListNotations.
Local Open Scope R_scope.
Local Arguments nd : simpl never.
Local Arguments fa : simpl never.

Lemma f_g_ext rob st st' d d' f : (forall j, In j (snd (fst f)) -> st j = st' j) -> (forall j k, In j (snd (fst f)) -> (k < nval_dim (st j))%nat -> d j k = d' j k) -> f_g rob st d f = f_g rob st' d' f.
Proof.
  destruct f as [[cl ids] W]. cbn [fst snd]. intros S D. unfold f_g, f_w, f_c. rewrite (map_ext_in st st' ids S). f_equal. apply quad_ext; intros i _; auto.
  rewrite (f_jd_ext st d d' cl ids i D). apply f_jd_state; auto.
Qed.
Lemma grown_rhs rob cs cs' w w' ex more : inv rob cs w -> inv rob cs' w' -> in_order w -> in_order w' -> grown cs cs' ex more -> Forall call_info cs -> Forall call_info cs' -> rob <> RANSAC ->
  (forall i, (i < length (nodes_of cs))%nat -> state_of w' i = state_of w i) -> forall x, gn_rhs w' x = gn_rhs w x + lsum (flat_map facts more) (f_g rob (state_of w') (inc_of w' x)).
Proof.
  intros V V' O O' G P P' NR Same x. rewrite (facts_rhs rob cs w V P NR), (facts_rhs rob cs' w' V' P' NR). pose proof G as [_ Pm]. rewrite (facts_measures cs'), (lsum_perm _ _ _ (Permutation_flat_map facts Pm)), flat_map_app, lsum_app, <- facts_measures. f_equal. apply lsum_ext. intros [[cl ids] W] I.
  pose proof (facts_bound rob cs w cl ids W V I) as B. rewrite Forall_forall in B. apply f_g_ext; cbn [fst snd].
  - intros j J. apply Same, B, J.
  - intros j k J Hk. apply (grown_inc rob cs cs' w w' ex more); auto. rewrite <- (Same j) by (apply B, J). exact Hk.
Qed.
Lemma f_jd_plus st d e cl ids a : f_jd st (fun i k => d i k + e i k) cl ids a = f_jd st d cl ids a + f_jd st e cl ids a.
Proof.
  unfold f_jd. generalize (fc_jac cl (map st ids) a). intros row. generalize 0%nat. induction ids as [|i ids IH]; intros off; cbn [map row_dir]; [ring|]. rewrite IH.
  rewrite (sumn_ext _ _ (fun k => row (off + k)%nat * d i k + row (off + k)%nat * e i k)) by (intros; ring). rewrite sumn_plus. ring.
Qed.

Section Branch.
Variables (rob : robust_type) (cs cs' : list pycall) (w w' : world) (ex : list (node_mode * kind)) (more : list pycall).
Hypothesis (V : inv rob cs w) (V' : inv rob cs' w') (O : in_order w) (O' : in_order w') (G : grown cs cs' ex more).
Hypothesis (P : Forall call_info cs) (P' : Forall call_info cs') (NR : rob <> RANSAC).
Hypothesis (Same : forall i, (i < length (nodes_of cs))%nat -> state_of w' i = state_of w i).
Hypothesis (Ty' : typed [] cs') (So : Forall solid_call cs') (Fi : firm w').
Let N := length (nodes_of cs).
Let q := length more.
Hypothesis (Std : Forall (fun x => fst x = STANDARD) ex) (Len : length ex = q) (Br : branch N more).
Let n := g_stateDim (w_graph w).
Let n' := g_stateDim (w_graph w').
Let st' := state_of w'.
Definition c_jd (d : nat -> nat -> R) (c : pycall) : nat -> R := match call_factor c with Some (cl, ids, W) => f_jd st' d cl ids | None => fun _ => 0 end.
Definition c_res (c : pycall) : nat -> R := match call_factor c with Some (cl, ids, W) => fc_res cl (map st' ids) | None => fun _ => 0 end.
Definition c_dim (c : pycall) : nat := match call_factor c with Some (cl, ids, W) => fc_dim cl | None => 0%nat end.
Definition c_b (c : pycall) (u v : nat -> R) : R := match call_factor c with Some (cl, ids, W) => f_w rob st' (cl, ids, W) * quad (fc_dim cl) W u v | None => 0 end.
Let jd := fun x => c_jd (inc_of w' x).

Lemma branch_len : length (nodes_of cs') = (N + q)%nat.
Proof. destruct G as [A _]. apply (f_equal (@length _)) in A. rewrite app_length, !map_length, Len in A. exact A. Qed.
Lemma branch_form x y : gn_form w' x y = gn_form w x y + lsum more (fun c => c_b c (jd x c) (jd y c)).
Proof.
  rewrite (grown_form rob cs cs' w w' ex more V V' O O' G P P' NR Same), lift_facts. f_equal. apply lsum_ext. intros c _. unfold lift, c_b, jd, c_jd. destruct (call_factor c) as [[[cl ids] W]|]; reflexivity.
Qed.
Lemma branch_rhs x : gn_rhs w' x = gn_rhs w x + lsum more (fun c => c_b c (jd x c) (c_res c)).
Proof.
  rewrite (grown_rhs rob cs cs' w w' ex more V V' O O' G P P' NR Same), lift_facts. f_equal. apply lsum_ext. intros c _. unfold lift, c_b, jd, c_jd, c_res. destruct (call_factor c) as [[[cl ids] W]|]; reflexivity.
Qed.
Lemma more_in c : In c more -> In c cs' /\ measures c = true.
Proof. intros I. destruct G as [_ Pm]. apply filter_In. apply (Permutation_in _ (Permutation_sym Pm)). apply in_app_iff. auto. Qed.
Lemma branch_at j c : nth_error more j = Some c -> exists cl ids W i, call_factor c = Some (cl, ids, W) /\ (i < N + j)%nat /\ fc_dim cl = nval_dim (st' (N + j)) /\ positive (fc_dim cl) W /\ (forall k, In k ids <-> k = i \/ k = (N + j)%nat) /\
  forall d, none_below (nval_dim (st' i)) (d i) -> (forall a, (a < fc_dim cl)%nat -> f_jd st' d cl ids a = 0) -> none_below (nval_dim (st' (N + j))) (d (N + j)%nat).
Proof.
  intros E. destruct (Br j c E) as (i & Hi & Hg). destruct (more_in c (nth_error_In _ _ E)) as [Ic Me]. unfold measures in Me. destruct (call_factor c) as [[[cl ids] W]|] eqn:Fc; [|discriminate]. exists cl, ids, W, i. split; auto. split; auto.
  apply (leaf_sees cs' st' c i (N + j) cl ids W); auto; [| |lia].
  - intros k t Eq. destruct (state_kind rob cs' w' k t V' Eq) as (_ & _ & X & _). exact X.
  - intros k T Eq. eapply firm_state_of; eauto.
Qed.
Lemma c_b_pos c u : In c more -> 0 <= c_b c u u /\ (c_b c u u = 0 -> forall a, (a < c_dim c)%nat -> u a = 0).
Proof.
  intros I. destruct (more_in c I) as [Ic _]. apply In_nth_error in I. destruct I as [j E]. destruct (branch_at j c E) as (cl & ids & W & i & Fc & _ & _ & Po & _). unfold c_b, c_dim. rewrite Forall_forall in P'. specialize (P' c Ic). unfold call_info in P'. rewrite Fc in *.
  pose proof (f_w_pos rob st' (cl, ids, W) NR) as Wp. split.
  - apply Rmult_le_pos; [lra|apply P'].
  - intros Z. apply Rmult_integral in Z. destruct Z; [lra|]. apply Po; auto.
Qed.
Lemma c_b_ext c u v u' v' : (forall a, (a < c_dim c)%nat -> u a = u' a) -> (forall a, (a < c_dim c)%nat -> v a = v' a) -> c_b c u v = c_b c u' v'.
Proof. unfold c_b, c_dim. destruct (call_factor c) as [[[cl ids] W]|]; auto. intros A B. f_equal. apply quad_ext; auto. Qed.
Lemma c_b_minus c u v v' : c_b c u (fun a => v a + - v' a) = c_b c u v - c_b c u v'.
Proof. unfold c_b. destruct (call_factor c) as [[[cl ids] W]|]; [|ring]. change (quad (fc_dim cl) W) with (form (fc_dim cl) W). rewrite form_plus_r, form_opp_r. ring. Qed.
(** moving the new nodes only, any change of the new measurements can be had *)
Lemma branch_motion (r : pycall -> nat -> R) : forall m, exists d, (forall i k, (i < N)%nat -> d i k = 0) /\ forall j c, (j < m)%nat -> nth_error more j = Some c -> forall a, (a < c_dim c)%nat -> c_jd d c a = r c a.
Proof.
  induction m as [|m (d & Dz & Dr)]. { exists (fun _ _ => 0). split; auto. intros; lia. }
  destruct (nth_error more m) as [c|] eqn:E.
  2: { exists d. split; auto. intros j c Hj Ej. apply (Dr j c); auto. destruct (Nat.eq_dec j m) as [->|]; [congruence|lia]. }
  destruct (branch_at m c E) as (cl & ids & W & i & Fc & Hi & Dc & Po & Ids & See).
  set (dz := fun k t => if Nat.eqb k (N + m) then 0 else d k t).
  destruct (leaf_meets st' cl ids i (N + m) (fc_dim cl) (fun a => r c a - f_jd st' dz cl ids a) eq_refl (eq_sym Dc) ltac:(lia) Ids ltac:(rewrite <- Dc in See; exact See)) as [e He].
  set (de := fun k t => if Nat.eqb k (N + m) then e t else 0). exists (fun k t => dz k t + de k t). split.
  - intros k t Hk. unfold dz, de. assert (Q : Nat.eqb k (N + m) = false) by (apply Nat.eqb_neq; lia). rewrite Q, (Dz k t Hk). ring.
  - intros j c' Hj Ej. destruct (Nat.eq_dec j m) as [->|Nj].
    + assert (c' = c) as -> by congruence. unfold c_dim, c_jd. rewrite Fc. intros a Ha. rewrite f_jd_plus. rewrite (He de); auto; [ring| |].
      * intros t _. unfold de. assert (Q : Nat.eqb i (N + m) = false) by (apply Nat.eqb_neq; lia). rewrite Q. reflexivity.
      * intros t _. unfold de. rewrite Nat.eqb_refl. reflexivity.
    + intros a Ha. rewrite <- (Dr j c' ltac:(lia) Ej a Ha). destruct (branch_at j c' Ej) as (cl' & ids' & W' & i' & Fc' & Hi' & _ & _ & Ids' & _). unfold c_jd. rewrite Fc'. apply f_jd_ext. intros k t Ik _. apply Ids' in Ik. unfold dz, de. assert (Q : Nat.eqb k (N + m) = false) by (apply Nat.eqb_neq; lia). rewrite Q. ring.
Qed.
Lemma old_inc x : (forall p, (p < n)%nat -> x p = 0) -> forall i k, (i < N)%nat -> (k < nval_dim (st' i))%nat -> inc_of w' x i k = 0.
Proof.
  intros Z i k Hi Hk. unfold st' in Hk. rewrite (Same i Hi) in Hk. rewrite (grown_inc rob cs cs' w w' ex more V V' O O' G Same x i k Hi Hk). rewrite (below_inc rob cs w V x (fun _ => 0) i k Z Hi Hk). unfold inc_of. rewrite (own_loc rob cs w i V O Hi). unfold increments. destruct (is_anchor _); reflexivity.
Qed.
Lemma branch_vector d : (forall i k, (i < N)%nat -> d i k = 0) -> exists x, (forall p, (p < n)%nat -> x p = 0) /\ forall i k, (i < N + q)%nat -> (k < nval_dim (st' i))%nat -> inc_of w' x i k = d i k.
Proof.
  intros Dz. set (x := pack (ndim w') (g_active (w_graph w')) d).
  assert (A : forall i k, (i < N + q)%nat -> (k < nval_dim (st' i))%nat -> inc_of w' x i k = d i k).
  { intros i k Hi Hk. rewrite <- branch_len in Hi. destruct (nth_error (nodes_of cs') i) as [[md v]|] eqn:E; [|apply nth_error_None in E; lia].
    destruct (mode_of rob cs' w' i md v V' E) as (l & Gl & _). pose proof Gl as Gl'. rewrite (own_loc rob cs' w' i V' O' Hi) in Gl. injection Gl as <-.
    assert (X : md = ANCHOR \/ md <> ANCHOR) by (destruct md; auto; right; discriminate). destruct X as [->|NA].
    - rewrite (anchor_inc rob cs' w' i v x k V' E). symmetry. apply Dz. destruct (Nat.lt_ge_cases i N) as [L|L]; auto. exfalso. destruct G as [Sh _]. assert (Q : nth_error (map shape (nodes_of cs')) i = Some (shape (ANCHOR, v))) by (rewrite nth_error_map, E; reflexivity).
      rewrite Sh, nth_error_app2 in Q by (rewrite map_length; exact L). apply nth_error_In in Q. rewrite Forall_forall in Std. specialize (Std _ Q). discriminate.
    - destruct (standard_active rob cs' w' i md v i V' E NA Gl') as [a Ha]. unfold inc_of. rewrite Gl', (increments_at w' _ a i k (gd_wf _ (iv_good _ _ _ V')) Ha). unfold x, col. rewrite (pack_at _ _ _ a i k Ha); auto. rewrite (own_dim rob cs' w' i V' O' Hi). exact Hk. }
  exists x. split; auto. assert (B : same_below n x (fun _ => 0)); [|exact B]. apply (inc_below rob cs w V). intros i k Hi Hk. rewrite <- (grown_inc rob cs cs' w w' ex more V V' O O' G Same x i k Hi Hk), A, Dz; auto; [|fold N in Hi; lia|unfold st'; rewrite (Same i Hi); exact Hk].
  unfold inc_of. rewrite (own_loc rob cs w i V O Hi). unfold increments. destruct (is_anchor _); reflexivity.
Qed.
Lemma branch_move (r : pycall -> nat -> R) : exists z, (forall p, (p < n)%nat -> z p = 0) /\ forall c, In c more -> forall a, (a < c_dim c)%nat -> jd z c a = r c a.
Proof.
  destruct (branch_motion r q) as (d & Dz & Dr). destruct (branch_vector d Dz) as (z & Zz & Zi). exists z. split; auto. intros c I. apply In_nth_error in I. destruct I as [j E]. assert (Hj : (j < q)%nat) by (apply nth_error_Some; congruence). intros a Ha. rewrite <- (Dr j c Hj E a Ha).
  destruct (branch_at j c E) as (cl & ids & W & i & Fc & Hi & _ & _ & Ids & _). unfold jd, c_jd. rewrite Fc. apply f_jd_ext. intros k t Ik Ht. apply Ids in Ik. apply Zi; auto. lia.
Qed.
(** what the new rows of the equations say *)
Lemma branch_met y r : (forall z, (forall p, (p < n)%nat -> z p = 0) -> lsum more (fun c => c_b c (jd z c) (jd y c)) = lsum more (fun c => c_b c (jd z c) (r c))) -> forall c, In c more -> forall a, (a < c_dim c)%nat -> jd y c a = r c a.
Proof.
  intros Q. destruct (branch_move (fun c a => jd y c a + - r c a)) as (z & Zz & Jz). specialize (Q z Zz).
  assert (S0 : lsum more (fun c => c_b c (jd z c) (jd z c)) = 0).
  { rewrite (lsum_ext more _ (fun c => c_b c (jd z c) (jd y c) + - 1 * c_b c (jd z c) (r c))). { rewrite lsum_plus, lsum_scal, Q. ring. }
    intros c I. rewrite (c_b_ext c (jd z c) (jd z c) (jd z c) (fun a => jd y c a + - r c a)) by auto. rewrite c_b_minus. ring. }
  intros c I a Ha. pose proof (lsum_zero_all more _ (fun c I => proj1 (c_b_pos c (jd z c) I)) S0 c I) as Zc. apply (proj2 (c_b_pos c (jd z c) I)) with (a := a) in Zc; auto. rewrite Jz in Zc by auto. lra.
Qed.
(** new nodes that the new measurements do not see move *)
Lemma branch_still x : (forall p, (p < n)%nat -> x p = 0) -> (forall c, In c more -> forall a, (a < c_dim c)%nat -> jd x c a = 0) -> forall p, (p < n')%nat -> x p = 0.
Proof.
  intros Z J. assert (A : forall m i k, (i < N + m)%nat -> (m <= q)%nat -> (k < nval_dim (st' i))%nat -> inc_of w' x i k = 0).
  { induction m as [|m IH]; intros i k Hi Hm Hk. { apply old_inc; auto. lia. } destruct (Nat.eq_dec i (N + m)) as [->|]; [|apply IH; auto; lia].
    destruct (nth_error more m) as [c|] eqn:E; [|apply nth_error_None in E; unfold q in Hm; lia]. destruct (branch_at m c E) as (cl & ids & W & i & Fc & Hi' & _ & _ & _ & See). refine (See (inc_of w' x) _ _ k Hk).
    - intros t Ht. apply IH; auto. lia.
    - intros a Ha. specialize (J c (nth_error_In _ _ E) a). unfold c_dim, jd, c_jd in J. rewrite Fc in J. auto. }
  assert (B : same_below n' x (fun _ => 0)); [|exact B]. apply (inc_below rob cs' w' V'). intros i k Hi Hk. rewrite branch_len in Hi. rewrite (A q i k Hi (le_n _) Hk). unfold inc_of. rewrite (own_loc rob cs' w' i V' O') by (rewrite branch_len; exact Hi). unfold increments. destruct (is_anchor _); reflexivity.
Qed.
End Branch.

(** ** the problem with the branch, and the one without *)
Lemma old_zero n L x y : (forall p, (p < n)%nat -> x p = 0) -> form n L x y = 0.
Proof. intros Z. unfold form. apply sumn_zero; intros p Hp; apply sumn_zero; intros q Hq; rewrite (Z p Hp); ring. Qed.
Lemma branch_nonsingular lin lin' rob cs cs' s s' ex more : typed [] cs -> typed [] cs' -> Forall call_info cs -> Forall call_info cs' -> Forall solid_call cs' -> rob <> RANSAC ->
  pycalls lin rob (solver_new world_new) cs = Some s -> pycalls lin' rob (solver_new world_new) cs' = Some s' -> grown cs cs' ex more ->
  Forall (fun x => fst x = STANDARD) ex -> length ex = length more -> branch (length (nodes_of cs)) more ->
  (forall i, (i < length (nodes_of cs))%nat -> state_of (s_w s') i = state_of (s_w s) i) ->
  exists b b' r, build_problem false s = Some b /\ build_problem false s' = Some b' /\ inv rob cs (s_w s) /\ inv rob cs' (s_w s') /\ in_order (s_w s) /\ in_order (s_w s') /\ let n := g_stateDim (w_graph (s_w s)) in g_stateDim (w_graph (s_w s')) = (n + r)%nat /\
  (nonsingular n (s_L b) -> nonsingular (n + r) (s_L b')) /\
  (nonsingular n (s_L b) -> forall d d', (forall y, gn_rhs (s_w s) y = gn_form (s_w s) y d) -> (forall y, gn_rhs (s_w s') y = gn_form (s_w s') y d') -> same_below n d' d) /\
  forall C C', inverse_of n (s_L b) C -> inverse_of (n + r) (s_L b') C' -> forall p q, (p < n)%nat -> (q < n)%nat -> C' p q = C p q.
Proof.
  intros Ty Ty' P P' So NR E E' G Std Len Br Same. destruct (build_forms lin rob cs s Ty P NR E) as (b & Eb & V & O & _ & F & S & Q). destruct (build_forms lin' rob cs' s' Ty' P' NR E') as (b' & Eb' & V' & O' & Fi & F' & S' & Q'). specialize (Fi So).
  pose proof (grown_dim rob cs cs' (s_w s) (s_w s') ex more V V' O O' G Same) as D. set (r := lsumn _) in D. exists b, b', r. split; auto. split; auto. split; auto. split; auto. split; auto. split; auto. cbv zeta. split; [exact D|].
  pose proof (branch_form rob cs cs' (s_w s) (s_w s') ex more V V' O O' G P P' NR Same) as BF. pose proof (branch_rhs rob cs cs' (s_w s) (s_w s') ex more V V' O O' G P P' NR Same) as BR.
  set (n := g_stateDim (w_graph (s_w s))) in *. set (jd := fun x => c_jd (s_w s') (inc_of (s_w s') x)). set (cb := c_b rob (s_w s')) in *.
  assert (GF : forall x y, form (n + r) (s_L b') x y = form n (s_L b) x y + lsum more (fun c => cb c (jd x c) (jd y c))) by (intros x y; rewrite <- D, F, F'; apply BF).
  assert (Met : forall y t, (forall z, (forall p, (p < n)%nat -> z p = 0) -> lsum more (fun c => cb c (jd z c) (jd y c)) = lsum more (fun c => cb c (jd z c) (t c))) -> forall c, In c more -> forall a, (a < c_dim c)%nat -> jd y c a = t c a) by (intros y t H; apply (branch_met rob cs cs' (s_w s) (s_w s') ex more); auto).
  assert (Thru : forall x y t, (forall c, In c more -> forall a, (a < c_dim c)%nat -> jd y c a = t c a) -> lsum more (fun c => cb c (jd x c) (jd y c)) = lsum more (fun c => cb c (jd x c) (t c))) by (intros x y t H; apply lsum_ext; intros c I; apply c_b_ext; auto).
  assert (Nul : forall x, lsum more (fun c => cb c (jd x c) (fun _ => 0)) = 0). { intros x. apply lsum_zero. intros c _. unfold cb, c_b. destruct (call_factor c) as [[[cl ids] W]|]; auto. unfold quad. rewrite sumn_zero; [ring|]. intros p _. apply sumn_zero. intros; ring. }
  assert (CB : forall c u, In c more -> 0 <= cb c u u /\ (cb c u u = 0 -> forall a, (a < c_dim c)%nat -> u a = 0)) by (intros c u I; apply (c_b_pos rob cs cs' (s_w s) (s_w s') ex more); auto).
  split; [|split].
  - intros NS x Z. assert (M : forall x, form n (s_L b) x x <= form (n + r) (s_L b') x x). { intros y. rewrite GF. assert (0 <= lsum more (fun c => cb c (jd y c) (jd y c))); [|lra]. apply lsum_nonneg. intros c I. apply (CB c _ I). }
    destruct (stays_nonsingular n r (s_L b) (s_L b') S Q NS M x Z) as [Z1 Z2]. rewrite GF, old_zero, Rplus_0_l in Z1 by auto. rewrite <- D. apply (branch_still rob cs cs' (s_w s) (s_w s') ex more); auto.
    intros c I. apply (proj2 (CB c (jd x c) I)).
    apply (lsum_zero_all more (fun c => cb c (jd x c) (jd x c))); auto. intros c' I'. apply (CB c' _ I').
  - intros NS d d' Ed Ed'. assert (Ez : forall z, form (n + r) (s_L b') z d' = form n (s_L b) z d + lsum more (fun c => cb c (jd z c) (c_res (s_w s') c))) by (intros z; rewrite <- D, F', <- Ed', BR, Ed, F; reflexivity).
    assert (J : forall c, In c more -> forall a, (a < c_dim c)%nat -> jd d' c a = c_res (s_w s') c a). { apply Met. intros z Zz. specialize (Ez z). rewrite GF, !old_zero in Ez by auto. lra. }
    assert (Qz : forall z, form n (s_L b) z d' = form n (s_L b) z d) by (intros z; specialize (Ez z); rewrite GF, (Thru z d' (c_res (s_w s')) J) in Ez; lra).
    assert (Z : forall p, (p < n)%nat -> d' p + - d p = 0); [|intros p Hp; specialize (Z p Hp); lra].
    apply (NS (fun p => d' p + - d p)). apply form_kernel; auto. rewrite form_plus_r, form_opp_r, Qz. ring.
  - intros C C' I I'. apply (inverse_stays n r (s_L b) (s_L b')); auto. intros y Hy x. rewrite GF.
    rewrite (Thru x y (fun _ _ => 0)), Nul; [ring|]. apply Met. intros z Zz. specialize (Hy z Zz). rewrite GF, old_zero in Hy by auto. rewrite Nul. lra.
Qed.
(** *** the new states *)
Lemma branch_solve lin lin' rob cs cs' s s' ex more b b' r k la tol k' la' tol' : exact lin -> exact lin' -> inv rob cs (s_w s) -> inv rob cs' (s_w s') -> in_order (s_w s) -> in_order (s_w s') -> grown cs cs' ex more ->
  (forall i, (i < length (nodes_of cs))%nat -> state_of (s_w s') i = state_of (s_w s) i) -> build_problem false s = Some b -> build_problem false s' = Some b' -> g_stateDim (w_graph (s_w s')) = (g_stateDim (w_graph (s_w s)) + r)%nat ->
  nonsingular (g_stateDim (w_graph (s_w s))) (s_L b) -> nonsingular (g_stateDim (w_graph (s_w s)) + r) (s_L b') ->
  (forall d d', (forall y, gn_rhs (s_w s) y = gn_form (s_w s) y d) -> (forall y, gn_rhs (s_w s') y = gn_form (s_w s') y d') -> same_below (g_stateDim (w_graph (s_w s))) d' d) ->
  exists t t', solve lin GN k la tol s = Some t /\ solve lin' GN k' la' tol' s' = Some t' /\ forall j, (j < length (nodes_of cs))%nat -> state_of (s_w t') j = state_of (s_w t) j.
Proof.
  intros X X' V V' Or Or' G Same Eb Eb' Dn Nn Nn' Step. pose proof (gd_wf _ (iv_good _ _ _ V)) as Wf. pose proof (gd_wf _ (iv_good _ _ _ V')) as Wf'.
  destruct (solve_total lin GN k la tol s Wf) as [t Et]. destruct (solve_total lin' GN k' la' tol' s' Wf') as [t' Et']. exists t, t'. split; auto. split; auto.
  assert (NS : forall b, build_problem false s = Some b -> nonsingular (g_stateDim (w_graph (s_w s))) (s_L b)). { intros b0 Q. rewrite Eb in Q. injection Q as <-. exact Nn. }
  assert (NS' : forall b, build_problem false s' = Some b -> nonsingular (g_stateDim (w_graph (s_w s'))) (s_L b)). { intros b0 Q. rewrite Eb' in Q. injection Q as <-. rewrite Dn. exact Nn'. }
  destruct (gn_step lin k la tol s t Wf X NS Et) as (Gt & O & d & Ed & U). destruct (gn_step lin' k' la' tol' s' t' Wf' X' NS' Et') as (Gt' & O' & d' & Ed' & U').
  pose proof (Step d d' Ed Ed') as D.
  intros j Hj. destruct (nth_error (nodes_of cs) j) as [[md v]|] eqn:E; [|apply nth_error_None in E; lia].
  assert (E' : exists v', nth_error (nodes_of cs') j = Some (md, v')).
  { destruct G as [Sh _]. assert (Q : nth_error (map shape (nodes_of cs')) j = Some (md, kind_of v)) by (rewrite Sh, nth_error_app1, nth_error_map, E by (rewrite map_length; lia); reflexivity). rewrite nth_error_map in Q. destruct (nth_error (nodes_of cs') j) as [[md' v']|]; [|discriminate]. injection Q as -> _. eauto. }
  destruct E' as [v' E']. destruct (mode_of rob cs (s_w s) j md v V E) as (l & Gl & M & Id & Es & _). destruct (mode_of rob cs' (s_w s') j md v' V' E') as (l' & Gl' & M' & Id' & Es' & _).
  pose proof (Same j Hj) as St. rewrite Es, Es' in St.
  assert (G1 : state_of (s_w t) j = nst (n_data (nd (s_w t) l))) by (unfold state_of, get_node in *; rewrite Gt, Gl; reflexivity).
  assert (G1' : state_of (s_w t') j = nst (n_data (nd (s_w t') l'))) by (unfold state_of, get_node in *; rewrite Gt', Gl'; reflexivity).
  rewrite G1, G1'. assert (A : md <> ANCHOR -> nst (n_data (nd (s_w t') l')) = nst (n_data (nd (s_w t) l))).
  { intros NA. destruct (standard_active rob cs (s_w s) j md v l V E NA Gl) as [a Ha]. destruct (standard_active rob cs' (s_w s') j md v' l' V' E' NA Gl') as [a' Ha'].
    rewrite (U a l Ha), (U' a' l' Ha'), St. apply val_update_ext. intros q Hq. rewrite <- Es in Hq.
    assert (Sb : same_below (g_stateDim (w_graph (s_w s))) (fun i => - d' i) (fun i => - d i)) by (intros p Hp; rewrite (D p Hp); reflexivity).
    pose proof (below_inc rob cs (s_w s) V _ _ j q Sb Hj Hq) as Q. rewrite <- (grown_inc rob cs cs' (s_w s) (s_w s') ex more V V' Or Or' G Same (fun i => - d' i) j q Hj Hq) in Q. unfold inc_of in Q. rewrite Gl, Gl' in Q. exact Q. }
  destruct md; [apply A; discriminate| |apply A; discriminate].
  rewrite (O l), (O' l'), St; auto; intros I.
  - destruct (wf_active _ Wf' l' I) as [_ Q]. congruence.
  - destruct (wf_active _ Wf l I) as [_ Q]. congruence.
Qed.
