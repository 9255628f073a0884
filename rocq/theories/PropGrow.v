(** C96: what more measurements do to the uncertainty. *)
Require Import Reals List Arith Lia Lra Bool Permutation.
From Verif Require Import Lin LinFacts SpecGeom SO3 SE3 SO3Misc SE3Alg Nodes NodesProofs Robust Graph GraphProofs Sums Solve SpecSolve SolveFrame SolveSums SolveBuild SolveProofs Session SessionProofs.
From Verif Require Import Factors SpecFactors FactorsDer FactorsPlanar Factors3D Factors3DLn FactorsMore FactorsSession FrameSolve SpecFrame SpecSolvable SolvableFactors SolvableSession MappingSession Reorder PropSolve PropFrame PropSolvable PropMapping PropFactors SpecLocate SpecChain Chain SpecGrow Grow.
Import ListNotations.
Local Open Scope R_scope.

(** *** A graph that determines its solution has a covariance *)
Theorem C96_inverse : forall lin rob cs s, typed [] cs -> Forall call_info cs -> rob <> RANSAC -> pycalls lin rob (solver_new world_new) cs = Some s ->
  exists b, build_problem false s = Some b /\ let n := g_stateDim (w_graph (s_w s)) in (nonsingular n (s_L b) <-> exists C, inverse_of n (s_L b) C) /\
  forall C, inverse_of n (s_L b) C -> sym_on n C /\ psd_on n C.
Proof.
  intros lin rob cs s Ty P NR E. destruct (build_forms lin rob cs s Ty P NR E) as (b & Eb & _ & _ & _ & _ & S & Q). exists b. split; auto. intros n. split.
  - split; [apply inverse_exists|]. intros [C I]. apply (inverse_nonsingular n (s_L b) C); auto.
  - intros C I. assert (D : forall j x, (j < n)%nat -> form n (s_L b) x (fun i => C i j) = x j). { intros j x Hj. rewrite form_rows. unfold dot. rewrite <- (dot_unit n x j) by lia. apply sumn_ext. intros k Hk. rewrite (I k j Hk) by lia. ring. }
    split.
    + intros i j Hi Hj. rewrite <- (D i (fun k => C k j) Hi), S. apply (D j); auto.
    + intros v. rewrite quad_apply. set (y := fun i => sumn n (fun j => C i j * v j)). replace (dot n v y) with (dot n y v) by (unfold dot; apply sumn_ext; intros; ring). rewrite <- (inverse_form n (s_L b) C y v I). apply Q.
Qed.
Print Assumptions C96_inverse.

(** *** More measurements, and more nodes, never make the nodes that were there less
    certain *)
Theorem C96_more : forall lin lin' rob cs cs' s s' ex more, typed [] cs -> typed [] cs' -> Forall call_info cs -> Forall call_info cs' -> rob <> RANSAC ->
  pycalls lin rob (solver_new world_new) cs = Some s -> pycalls lin' rob (solver_new world_new) cs' = Some s' -> grown cs cs' ex more ->
  (forall i, (i < length (nodes_of cs))%nat -> state_of (s_w s') i = state_of (s_w s) i) ->
  exists b b', build_problem false s = Some b /\ build_problem false s' = Some b' /\ let n := g_stateDim (w_graph (s_w s)) in let n' := g_stateDim (w_graph (s_w s')) in (n <= n')%nat /\
  forall C C', inverse_of n (s_L b) C -> inverse_of n' (s_L b') C' -> forall v, quad n C' v v <= quad n C v v.
Proof.
  intros lin lin' rob cs cs' s s' ex more Ty Ty' P P' NR E E' G Same. destruct (build_forms lin rob cs s Ty P NR E) as (b & Eb & V & O & _ & F & S & Q). destruct (build_forms lin' rob cs' s' Ty' P' NR E') as (b' & Eb' & V' & O' & _ & F' & _ & _).
  exists b, b'. split; auto. split; auto. pose proof (grown_dim rob cs cs' (s_w s) (s_w s') ex more V V' O O' G Same) as D. cbv zeta. set (n := g_stateDim (w_graph (s_w s))) in *. set (r := lsumn _) in D. rewrite D in *. split; [lia|].
  intros C C' I I'. apply (inverse_shrinks n r (s_L b) (s_L b')); auto. intros x. rewrite F, F', (grown_form rob cs cs' (s_w s) (s_w s') ex more V V' O O' G P P' NR Same). pose proof (more_nonneg rob cs cs' (s_w s') ex more G P' NR x). lra.
Qed.
Print Assumptions C96_more.
(** *** ... and a graph that determines its solution still does *)
Theorem C96_determined : forall lin lin' rob cs cs' s s' more, typed [] cs -> typed [] cs' -> Forall call_info cs -> Forall call_info cs' -> rob <> RANSAC ->
  pycalls lin rob (solver_new world_new) cs = Some s -> pycalls lin' rob (solver_new world_new) cs' = Some s' -> grown cs cs' [] more ->
  (forall i, (i < length (nodes_of cs))%nat -> state_of (s_w s') i = state_of (s_w s) i) ->
  exists b b', build_problem false s = Some b /\ build_problem false s' = Some b' /\ let n := g_stateDim (w_graph (s_w s)) in g_stateDim (w_graph (s_w s')) = n /\ (nonsingular n (s_L b) -> nonsingular n (s_L b')).
Proof.
  intros lin lin' rob cs cs' s s' more Ty Ty' P P' NR E E' G Same. destruct (build_forms lin rob cs s Ty P NR E) as (b & Eb & V & O & _ & F & S & Q). destruct (build_forms lin' rob cs' s' Ty' P' NR E') as (b' & Eb' & V' & O' & _ & F' & _ & _).
  exists b, b'. split; auto. split; auto. pose proof (grown_dim rob cs cs' (s_w s) (s_w s') [] more V V' O O' G Same) as D. cbv zeta. set (n := g_stateDim (w_graph (s_w s))) in *.
  assert (Len : length (nodes_of cs') = length (nodes_of cs)). { destruct G as [A _]. apply (f_equal (@length _)) in A. rewrite app_nil_r, !map_length in A. exact A. }
  assert (Z : filter (fun x => negb (x <? length (nodes_of cs))%nat) (g_active (w_graph (s_w s'))) = []).
  { assert (B : forall l, In l (g_active (w_graph (s_w s'))) -> (l < length (nodes_of cs))%nat) by (intros l Il; rewrite <- Len; apply (active_below rob cs' (s_w s') V' O' l Il)). clear - B. induction (g_active (w_graph (s_w s'))) as [|l ls IH]; [reflexivity|]. cbn [filter]. pose proof (B l (or_introl eq_refl)) as L. apply Nat.ltb_lt in L. rewrite L. cbn [negb]. apply IH. intros x Ix. apply B. right; auto. }
  rewrite Z in D. cbn [map lsumn] in D. split; [lia|]. intros NS x Zx.
  assert (M : forall x, form n (s_L b) x x <= form (n + 0) (s_L b') x x). { intros y. rewrite <- D, F, F', (grown_form rob cs cs' (s_w s) (s_w s') [] more V V' O O' G P P' NR Same). pose proof (more_nonneg rob cs cs' (s_w s') [] more G P' NR y). lra. }
  apply (stays_nonsingular n 0 (s_L b) (s_L b') S Q NS M x). intros i Hi. rewrite !Nat.add_0_r in *. apply Zx, Hi.
Qed.
Print Assumptions C96_determined.

(** *** A new node that is tied to the graph by a single measurement leaves the
    uncertainty of the others as it is *)
Theorem C96_leaf : forall lin lin' rob cs cs' s s' k c i, typed [] cs -> typed [] cs' -> Forall call_info cs -> Forall call_info cs' -> Forall solid_call cs' -> rob <> RANSAC ->
  pycalls lin rob (solver_new world_new) cs = Some s -> pycalls lin' rob (solver_new world_new) cs' = Some s' -> grown cs cs' [(STANDARD, k)] [c] ->
  (i < length (nodes_of cs))%nat -> hangs [c] i (length (nodes_of cs)) ->
  (forall i, (i < length (nodes_of cs))%nat -> state_of (s_w s') i = state_of (s_w s) i) ->
  exists b b', build_problem false s = Some b /\ build_problem false s' = Some b' /\ let n := g_stateDim (w_graph (s_w s)) in let n' := g_stateDim (w_graph (s_w s')) in
  (nonsingular n (s_L b) -> nonsingular n' (s_L b')) /\
  forall C C', inverse_of n (s_L b) C -> inverse_of n' (s_L b') C' -> forall p q, (p < n)%nat -> (q < n)%nat -> C' p q = C p q.
Proof.
  intros lin lin' rob cs cs' s s' k c i Ty Ty' P P' So NR E E' G Hi Hg Same. destruct (build_forms lin rob cs s Ty P NR E) as (b & Eb & V & O & _ & F & S & Q). destruct (build_forms lin' rob cs' s' Ty' P' NR E') as (b' & Eb' & V' & O' & Fi & F' & S' & Q').
  specialize (Fi So). exists b, b'. split; auto. split; auto. pose proof (grown_dim rob cs cs' (s_w s) (s_w s') _ [c] V V' O O' G Same) as D. cbv zeta. set (n := g_stateDim (w_graph (s_w s))) in *. set (N := length (nodes_of cs)) in *.
  assert (Len : length (nodes_of cs') = (N + 1)%nat). { destruct G as [A _]. apply (f_equal (@length _)) in A. rewrite app_length, !map_length in A. exact A. }
  assert (A : g_active (w_graph (s_w s')) = g_active (w_graph (s_w s)) ++ [N]).
  { rewrite (grown_active rob cs cs' (s_w s) (s_w s') _ [c] V V' O O' G). fold N. f_equal. apply sorted_same.
    - apply sorted_filter, (io_sorted _ O').
    - repeat constructor.
    - intros x. rewrite filter_In. split.
      + intros [Ix Lx]. pose proof (active_below rob cs' (s_w s') V' O' x Ix). apply negb_true_iff, Nat.ltb_ge in Lx. left. lia.
      + intros [<-|[]]. split; [|apply negb_true_iff, Nat.ltb_ge; lia]. apply (own_active rob cs' (s_w s') N V' O'). destruct G as [A _]. rewrite A. exists (STANDARD, k). split; [|discriminate]. rewrite nth_error_app2, map_length by (rewrite map_length; auto). fold N. rewrite Nat.sub_diag. reflexivity. }
  assert (Am : nth_error (g_active (w_graph (s_w s'))) (length (g_active (w_graph (s_w s)))) = Some N) by (rewrite A, nth_error_app2, Nat.sub_diag by lia; reflexivity).
  assert (Cn : col (s_w s') (length (g_active (w_graph (s_w s)))) = n). { rewrite (grown_before rob cs cs' (s_w s) (s_w s') _ [c] V V' O O' G Same) by lia. unfold n. rewrite (wf_state _ (gd_wf _ (iv_good _ _ _ V))). apply SolveIndex.before_all. }
  set (m := nval_dim (state_of (s_w s') N)).
  assert (Dm : ndim (s_w s') N = m) by (apply (own_dim rob cs' (s_w s') N V' O'); lia).
  assert (D2 : g_stateDim (w_graph (s_w s')) = (n + m)%nat).
  { rewrite D. f_equal. rewrite (filter_ext_in (fun x => negb (x <? N)%nat) (fun x => (N <=? x)%nat)) by (intros x _; destruct (Nat.ltb_spec x N); destruct (Nat.leb_spec N x); auto; lia). rewrite A, filter_app. cbn [filter]. rewrite Nat.leb_refl.
    replace (filter (fun x => (N <=? x)%nat) (g_active (w_graph (s_w s)))) with (@nil loc); [cbn; lia|]. assert (B : forall l, In l (g_active (w_graph (s_w s))) -> (l < N)%nat) by (intros l Il; apply (active_below rob cs (s_w s) V O l Il)). clear - B. induction (g_active (w_graph (s_w s))) as [|l ls IH]; [reflexivity|]. cbn [filter]. pose proof (B l (or_introl eq_refl)) as L. destruct (Nat.leb_spec N l); [lia|]. apply IH. intros x Ix. apply B. right; auto. }
  clear D. rewrite D2 in *.
  assert (IN : forall x j, (j < m)%nat -> inc_of (s_w s') x N j = x (n + j)%nat).
  { intros x j Hj. unfold inc_of. rewrite (own_loc rob cs' (s_w s') N V' O') by lia. rewrite (increments_at (s_w s') x _ N j (gd_wf _ (iv_good _ _ _ V')) Am), Cn. reflexivity. }
  assert (IO : forall x, (forall p, (p < n)%nat -> x p = 0) -> none_below (nval_dim (state_of (s_w s') i)) (inc_of (s_w s') x i)).
  { intros x Z j Hj. rewrite (Same i Hi) in Hj. rewrite (grown_inc rob cs cs' (s_w s) (s_w s') _ [c] V V' O O' G Same x i j Hi Hj). rewrite (below_inc rob cs (s_w s) V x (fun _ => 0) i j Z Hi Hj). unfold inc_of. rewrite (own_loc rob cs (s_w s) i V O Hi). unfold increments. destruct (is_anchor _); reflexivity. }
  assert (Ic : In c cs'). { destruct G as [_ Pm]. apply (filter_In measures). apply (Permutation_in _ (Permutation_sym Pm)). apply in_app_iff. right. left. auto. }
  assert (K : forall j q, nth_error (fold_left kinds_after cs' []) j = Some q -> kind_of (state_of (s_w s') j) = q). { intros j q Eq. destruct (state_kind rob cs' (s_w s') j q V' Eq) as (_ & _ & X & _). exact X. }
  assert (Fc : exists cl ids W, call_factor c = Some (cl, ids, W)). { destruct G as [_ Pm]. assert (X : In c (filter measures cs')) by (apply (Permutation_in _ (Permutation_sym Pm)), in_app_iff; right; left; auto). apply filter_In in X. destruct X as [_ X]. unfold measures in X. destruct (call_factor c) as [[[cl ids] W]|]; [eauto|discriminate]. }
  destruct Fc as (cl & ids & W & Fc). destruct (leaf_sees cs' (state_of (s_w s')) c i N cl ids W Ty' Ic So K ltac:(intros; eapply firm_state_of; eauto) Hg Fc ltac:(lia)) as (Dc & Po & Ids & See). fold m in Dc, See. rewrite Dc in Po, See.
  assert (FM : flat_map facts [c] = [(cl, ids, W)]) by (cbn [flat_map]; unfold facts; rewrite Fc; reflexivity).
  assert (GF : forall x y, form (n + m) (s_L b') x y = form n (s_L b) x y + f_w rob (state_of (s_w s')) (cl, ids, W) * quad m W (f_jd (state_of (s_w s')) (inc_of (s_w s') x) cl ids) (f_jd (state_of (s_w s')) (inc_of (s_w s') y) cl ids)).
  { intros x y. rewrite F, F', (grown_form rob cs cs' (s_w s) (s_w s') _ [c] V V' O O' G P P' NR Same), FM. unfold lsum. cbn [fold_right]. unfold f_f. rewrite Dc. ring. }
  pose proof (f_w_pos rob (state_of (s_w s')) (cl, ids, W) NR) as Wp. set (om := f_w rob (state_of (s_w s')) (cl, ids, W)) in *.
  split.
  - intros NS x Z. assert (M : forall x, form n (s_L b) x x <= form (n + m) (s_L b') x x). { intros y. rewrite F, F', (grown_form rob cs cs' (s_w s) (s_w s') _ [c] V V' O O' G P P' NR Same). pose proof (more_nonneg rob cs cs' (s_w s') _ [c] G P' NR y). lra. }
    destruct (stays_nonsingular n m (s_L b) (s_L b') S Q NS M x Z) as [Z1 Z2]. rewrite GF in Z1. assert (Z3 : form n (s_L b) x x = 0) by (unfold form; apply sumn_zero; intros p Hp; apply sumn_zero; intros q Hq; rewrite (Z2 p Hp); ring). rewrite Z3, Rplus_0_l in Z1.
    apply Rmult_integral in Z1. destruct Z1 as [Z1|Z1]; [lra|]. pose proof (Po _ Z1) as U. specialize (See (inc_of (s_w s') x) (IO x Z2) U).
    intros p Hp. destruct (Nat.lt_ge_cases p n) as [L|L]; [auto|]. replace p with (n + (p - n))%nat by lia. rewrite <- IN by lia. apply See. lia.
  - intros C C' I I'. apply (inverse_stays n m (s_L b) (s_L b')); auto. intros y Hy x. rewrite GF.
    assert (U : forall a, (a < m)%nat -> f_jd (state_of (s_w s')) (inc_of (s_w s') y) cl ids a = 0).
    { apply Po. destruct (leaf_meets (state_of (s_w s')) cl ids i N m (f_jd (state_of (s_w s')) (inc_of (s_w s') y) cl ids) Dc eq_refl ltac:(lia) Ids See) as [e He].
      set (z := fun p => if (p <? n)%nat then 0 else e (p - n)%nat). assert (Zz : forall p, (p < n)%nat -> z p = 0) by (intros p Hp; unfold z; apply Nat.ltb_lt in Hp; rewrite Hp; reflexivity).
      specialize (Hy z Zz). rewrite GF in Hy. assert (Z3 : form n (s_L b) z y = 0) by (unfold form; apply sumn_zero; intros p Hp; apply sumn_zero; intros q Hq; rewrite (Zz p Hp); ring). rewrite Z3, Rplus_0_l in Hy. apply Rmult_integral in Hy. destruct Hy as [Hy|Hy]; [lra|].
      rewrite <- Hy. apply quad_ext; auto. intros a Ha. symmetry. apply He; auto. intros j Hj. rewrite IN by auto. unfold z. destruct (Nat.ltb_spec (n + j) n); [lia|]. f_equal. lia. }
    rewrite (quad_ext m W _ _ (f_jd (state_of (s_w s')) (inc_of (s_w s') x) cl ids) (fun _ => 0)) by auto. replace (quad m W _ (fun _ => 0)) with 0; [ring|]. symmetry. unfold quad. apply sumn_zero. intros p _. apply sumn_zero. intros q _. ring.
Qed.
Print Assumptions C96_leaf.

(** *** This is for fixed states: a landmark that a second measurement moves further
    away becomes less certain across *)
Definition near_calls : list pycall := [CNode ANCHOR (P2 v3zero); CNode STANDARD (L2 1 0); CLandmark2d 1 0 0 1 id3 false].
Definition far_calls : list pycall := [CNode ANCHOR (P2 v3zero); CNode STANDARD (L2 10 0); CLandmark2d 1 0 0 1 id3 false; CLandmark2d 19 0 0 1 id3 false].
Lemma far_jd st r d a o : st 0%nat = P2 v3zero -> st 1%nat = L2 r 0 -> 1 <= r -> (forall k, d 0%nat k = 0) -> (a < 2)%nat ->
  f_jd st d (c_landmark2d o 0 false false) [0%nat; 1%nat] a = if Nat.eqb a 0 then d 1%nat 0%nat else d 1%nat 1%nat / r.
Proof.
  intros S0 S1 R Z Ha. unfold f_jd. cbn [map]. rewrite S0, S1. cbn [c_landmark2d fc_jac]. unfold jac_landmark2d, v3zero. cbn [vx vy vz].
  replace ((r - 0) * (r - 0) + (0 - 0) * (0 - 0)) with (r * r) by ring. rewrite sqrt_square by lra. unfold Rltb. destruct (Rlt_dec (r * r) (1 / 1000000)); [nra|].
  destruct a as [|[|a]]; [| |lia]; cbn; rewrite !Z; field; lra.
Qed.
Lemma far_form (w : world) st r o x y : st 0%nat = P2 v3zero -> st 1%nat = L2 r 0 -> 1 <= r -> (forall z k, inc_of w z 0 k = 0) -> (forall z k, inc_of w z 1 k = z k) ->
  f_f QUADRATIC st (inc_of w x) (inc_of w y) (c_landmark2d o 0 false false, [0%nat; 1%nat], id3) = x 0%nat * y 0%nat + x 1%nat * y 1%nat / (r * r).
Proof.
  intros S0 S1 R I0 I1. unfold f_f. change (f_w QUADRATIC st (c_landmark2d o 0 false false, [0%nat; 1%nat], id3)) with 1. change (fc_dim (c_landmark2d o 0 false false)) with 2%nat.
  rewrite (quad_ext 2 id3 _ _ (fun a => if Nat.eqb a 0 then x 0%nat else x 1%nat / r) (fun a => if Nat.eqb a 0 then y 0%nat else y 1%nat / r)).
  - unfold quad. cbn. field. lra.
  - intros a Ha. rewrite (far_jd st r) by auto. rewrite !I1. reflexivity.
  - intros a Ha. rewrite (far_jd st r) by auto. rewrite !I1. reflexivity.
Qed.
Lemma inverse_11 L C c : inverse_of 2 L C -> (forall x y, form 2 L x y = c * (x 0%nat * y 0%nat) + x 1%nat * y 1%nat * c / 100) -> 0 < c -> C 1%nat 1%nat = 100 / c.
Proof.
  intros I F Hc. pose proof (F (fun k => if Nat.eqb k 1 then 1 else 0) (fun k => C k 1%nat)) as Q. rewrite form_rows in Q. unfold dot in Q. rewrite dot_unit in Q by lia. rewrite (I 1%nat 1%nat) in Q by lia. cbn in Q.
  apply (Rmult_eq_reg_l (c / 100)); [|lra]. replace (c / 100 * (100 / c)) with 1 by (field; lra). lra.
Qed.
Theorem C96_moved_refuted : exists cs cs' more, typed [] cs /\ typed [] cs' /\ Forall call_info cs /\ Forall call_info cs' /\ grown cs cs' [] more /\
  forall lin, exists s s' b b', pycalls lin QUADRATIC (solver_new world_new) cs = Some s /\ pycalls lin QUADRATIC (solver_new world_new) cs' = Some s' /\ build_problem false s = Some b /\ build_problem false s' = Some b' /\
  g_stateDim (w_graph (s_w s)) = 2%nat /\ g_stateDim (w_graph (s_w s')) = 2%nat /\ nonsingular 2 (s_L b) /\ nonsingular 2 (s_L b') /\
  forall C C', inverse_of 2 (s_L b) C -> inverse_of 2 (s_L b') C' -> C 1%nat 1%nat < C' 1%nat 1%nat.
Proof.
  exists near_calls, far_calls, [CLandmark2d 19 0 0 1 id3 false]. assert (T : typed [] near_calls) by (cbn; repeat split; auto; discriminate). assert (T' : typed [] far_calls) by (cbn; repeat split; auto; discriminate).
  assert (P : Forall call_info near_calls) by (unfold near_calls; repeat (apply Forall_cons; [first [exact I|exact (id3_proper 2)]|]); apply Forall_nil). assert (P' : Forall call_info far_calls) by (unfold far_calls; repeat (apply Forall_cons; [first [exact I|exact (id3_proper 2)]|]); apply Forall_nil).
  split; auto. split; auto. split; auto. split; auto. split. { split; [reflexivity|apply Permutation_refl]. }
  intros lin. assert (NR : QUADRATIC <> RANSAC) by discriminate. destruct (session_inv lin QUADRATIC _ T) as (s & E & _). destruct (session_inv lin QUADRATIC _ T') as (s' & E' & _).
  destruct (build_forms lin QUADRATIC _ s T P NR E) as (b & Eb & V & _ & _ & F & S & _). destruct (build_forms lin QUADRATIC _ s' T' P' NR E') as (b' & Eb' & V' & _ & _ & F' & S' & _).
  assert (A : state_of (s_w s) 0 = P2 v3zero /\ state_of (s_w s) 1 = L2 1 0 /\ (forall z k, inc_of (s_w s) z 0 k = 0) /\ (forall z k, inc_of (s_w s) z 1 k = z k) /\ g_stateDim (w_graph (s_w s)) = 2%nat).
  { clear - E. unfold near_calls in E. cbv -[v3zero id3 IZR lvec res_landmark2d jac_landmark2d l3 lmat beside R1 R0] in E. injection E as <-. repeat split. }
  assert (A' : state_of (s_w s') 0 = P2 v3zero /\ state_of (s_w s') 1 = L2 10 0 /\ (forall z k, inc_of (s_w s') z 0 k = 0) /\ (forall z k, inc_of (s_w s') z 1 k = z k) /\ g_stateDim (w_graph (s_w s')) = 2%nat).
  { clear - E'. unfold far_calls in E'. cbv -[v3zero id3 IZR lvec res_landmark2d jac_landmark2d l3 lmat beside R1 R0] in E'. injection E' as <-. repeat split. }
  destruct A as (A0 & A1 & I0 & I1 & D). destruct A' as (B0 & B1 & J0 & J1 & D'). rewrite D in F, S. rewrite D' in F', S'.
  assert (G : forall x y, form 2 (s_L b) x y = 1 * (x 0%nat * y 0%nat) + x 1%nat * y 1%nat * 1).
  { intros x y. rewrite F, (facts_form QUADRATIC near_calls (s_w s) V P NR). change (flat_map facts near_calls) with [(c_landmark2d 1 0 false false, [0%nat; 1%nat], id3)]. unfold lsum. cbn [fold_right]. rewrite (far_form (s_w s) (state_of (s_w s)) 1) by (auto; lra). field. }
  assert (G' : forall x y, form 2 (s_L b') x y = 2 * (x 0%nat * y 0%nat) + x 1%nat * y 1%nat * 2 / 100).
  { intros x y. rewrite F', (facts_form QUADRATIC far_calls (s_w s') V' P' NR). change (flat_map facts far_calls) with [(c_landmark2d 1 0 false false, [0%nat; 1%nat], id3); (c_landmark2d 19 0 false false, [0%nat; 1%nat], id3)]. unfold lsum. cbn [fold_right]. rewrite !(far_form (s_w s') (state_of (s_w s')) 10) by (auto; lra). field. }
  exists s, s', b, b'. split; auto. split; auto. split; auto. split; auto. split; auto. split; auto.
  assert (NSg : forall L c c1, 0 < c -> 0 < c1 -> (forall x y, form 2 L x y = c * (x 0%nat * y 0%nat) + x 1%nat * y 1%nat * c1) -> nonsingular 2 L).
  { clear. intros L c c1 Hc H1 G x Z. assert (K : form 2 L x x = 0) by (rewrite form_rows; unfold dot; apply sumn_zero; intros i Hi; rewrite Z by auto; ring). rewrite G in K. assert (x 0%nat * x 0%nat = 0 /\ x 1%nat * x 1%nat = 0) as [X Y] by (pose proof (Rle_0_sqr (x 0%nat)); pose proof (Rle_0_sqr (x 1%nat)); unfold Rsqr in *; split; nra).
    apply Rmult_integral in X. apply Rmult_integral in Y. intros [|[|i]] H; [tauto|tauto|lia]. }
  split; [apply (NSg _ 1 1); auto; lra|]. split; [apply (NSg _ 2 (2 / 100)); auto; try lra; intros; rewrite G'; field|].
  intros C C' I I'. rewrite (inverse_11 _ C' 2 I' G') by lra.
  assert (Q : C 1%nat 1%nat = 1). { pose proof (G (fun k => if Nat.eqb k 1 then 1 else 0) (fun k => C k 1%nat)) as Q. rewrite form_rows in Q. unfold dot in Q. rewrite dot_unit in Q by lia. rewrite (I 1%nat 1%nat) in Q by lia. cbn in Q. lra. }
  rewrite Q. lra.
Qed.
Print Assumptions C96_moved_refuted.

(** *** Examples: two steps of odometry; then a loop closure; then a landmark *)
Definition step1 : M4 := trans (mkV3 1 0 0).
Definition path_calls : list pycall := [CNode ANCHOR (P3 m4id); CNode STANDARD (P3 step1); CNode STANDARD (P3 (m4mul step1 step1)); C2Poses3d step1 0 1 id3 false; C2Poses3d step1 1 2 id3 false].
Definition loop_calls : list pycall := path_calls ++ [C2Poses3d (m4mul step1 step1) 0 2 id3 false].
Definition seen_calls : list pycall := path_calls ++ [CNode STANDARD (L3 (mkV3 1 2 3)); CLandmark3d (mkV3 0 2 3) 2 3 id3 false].
Definition path_poses (k : nat) : nval := match k with 0%nat => P3 m4id | 1%nat => P3 step1 | 2%nat => P3 (m4mul step1 step1) | _ => P3 m4id end.
Lemma loop_solid : solid (m4mul step1 step1). Proof. apply rigid_solid, rigid_mul; apply trans_rigid. Qed.
Ltac small_run E := unfold loop_calls, seen_calls, path_calls in E; cbv -[step1 m4id m4mul id3 IZR lvec res_2poses3d jac_2poses3d res_landmark3d jac_landmark3d l6 l3 lmat beside R1 R0] in E; injection E as <-; intros [|[|[|k]]] H; try lia; reflexivity.
Example C96_ex : forall lin rob, exists s s1 s2, typed [] path_calls /\ typed [] loop_calls /\ typed [] seen_calls /\ Forall call_info path_calls /\ Forall call_info loop_calls /\ Forall call_info seen_calls /\ Forall solid_call seen_calls /\
  pycalls lin rob (solver_new world_new) path_calls = Some s /\ pycalls lin rob (solver_new world_new) loop_calls = Some s1 /\ pycalls lin rob (solver_new world_new) seen_calls = Some s2 /\
  grown path_calls loop_calls [] [C2Poses3d (m4mul step1 step1) 0 2 id3 false] /\ grown path_calls seen_calls [(STANDARD, KL3)] [CLandmark3d (mkV3 0 2 3) 2 3 id3 false] /\
  hangs [CLandmark3d (mkV3 0 2 3) 2 3 id3 false] 2 (length (nodes_of path_calls)) /\
  forall i, (i < length (nodes_of path_calls))%nat -> state_of (s_w s1) i = state_of (s_w s) i /\ state_of (s_w s2) i = state_of (s_w s) i.
Proof.
  intros lin rob. assert (T : typed [] path_calls) by (cbn; repeat split; auto; discriminate). assert (T1 : typed [] loop_calls) by (cbn; repeat split; auto; discriminate). assert (T2 : typed [] seen_calls) by (cbn; repeat split; auto; discriminate).
  destruct (session_inv lin rob _ T) as (s & E & _). destruct (session_inv lin rob _ T1) as (s1 & E1 & _). destruct (session_inv lin rob _ T2) as (s2 & E2 & _). exists s, s1, s2.
  split; auto. split; auto. split; auto.
  split. { unfold path_calls. repeat (apply Forall_cons; [first [exact I|exact (id3_proper 6)]|]). apply Forall_nil. }
  split. { unfold loop_calls, path_calls. cbn [app]. repeat (apply Forall_cons; [first [exact I|exact (id3_proper 6)]|]). apply Forall_nil. }
  split. { unfold seen_calls, path_calls. cbn [app]. repeat (apply Forall_cons; [first [exact I|exact (id3_proper 6)|exact (id3_proper 3)]|]). apply Forall_nil. }
  split. { unfold seen_calls, path_calls. cbn [app]. repeat (apply Forall_cons; [first [exact I|exact loop_solid|exact (rigid_solid _ (trans_rigid _))|exact (rigid_solid _ rigid_id)]|]). apply Forall_nil. }
  split; auto. split; auto. split; auto.
  split. { split; [reflexivity|apply Permutation_refl]. } split. { split; [reflexivity|apply Permutation_refl]. }
  split. { apply (hangs_landmark3d _ (mkV3 0 2 3) 2 3 id3 false); [left; reflexivity|apply id_positive]. }
  assert (A : forall k, (k < 3)%nat -> state_of (s_w s) k = path_poses k) by (clear - E; small_run E). assert (A1 : forall k, (k < 3)%nat -> state_of (s_w s1) k = path_poses k) by (clear - E1; small_run E1). assert (A2 : forall k, (k < 3)%nat -> state_of (s_w s2) k = path_poses k) by (clear - E2; small_run E2).
  intros i Hi. change (length (nodes_of path_calls)) with 3%nat in Hi. rewrite A, A1, A2 by auto. auto.
Qed.
