(** One more measurement: the update of the covariance and of the solution (proofs for C100). *)
Require Import Reals List Arith Lia Lra Bool Permutation.
From Verif Require Import Lin Sums Solve SpecSolve SolveSums SolveProofs FrameSolve SpecFrame SpecChain Chain Grow SpecDof Dof SpecKalman.
From Verif Require Import LinFacts Nodes Robust Graph GraphProofs SolveIndex SolveFrame SolveBuild Session SessionProofs Factors SpecFactors FactorsSession SpecSolvable SolvableSession MappingSession FrameFactors Reorder SpecGrow Branch.
Import ListNotations.
Local Open Scope R_scope.

Definition mv (n : nat) (A : nat -> nat -> R) (x : nat -> R) (i : nat) : R := sumn n (fun j => A i j * x j).
Lemma mv_ext n A x y i : (forall j, (j < n)%nat -> x j = y j) -> mv n A x i = mv n A y i.
Proof. intros E. apply sumn_ext; intros j Hj. rewrite E by auto. reflexivity. Qed.
Lemma mv_plus n A x y i : mv n A (fun j => x j + y j) i = mv n A x i + mv n A y i.
Proof. unfold mv. rewrite <- sumn_plus. apply sumn_ext; intros; ring. Qed.
Lemma mv_minus n A x y i : mv n A (fun j => x j - y j) i = mv n A x i - mv n A y i.
Proof. unfold mv, Rminus. rewrite <- sumn_opp, <- sumn_plus. apply sumn_ext; intros; ring. Qed.
Lemma mv_times n k A B x i : mv n (times k A B) x i = mv k A (mv n B x) i.
Proof. unfold mv, times. transitivity (sumn n (fun j => sumn k (fun a => A i a * (B a j * x j)))). { apply sumn_ext; intros j _. rewrite sumn_mult_r. apply sumn_ext; intros; ring. } rewrite sumn_swap. apply sumn_ext; intros a _. rewrite sumn_mult_l. reflexivity. Qed.
Lemma mv_inverse n A B x i : inverse_of n A B -> (i < n)%nat -> mv n A (mv n B x) i = x i.
Proof. intros I Hi. rewrite <- mv_times. unfold mv. rewrite <- (dot_unit n x i Hi). apply sumn_ext; intros j Hj. unfold times. rewrite (I i j Hi Hj), Nat.eqb_sym. reflexivity. Qed.
Section Update.
Variables (n m : nat) (L L' J W N C T : nat -> nat -> R).
Hypothesis (EL : forall i j, (i < n)%nat -> (j < n)%nat -> L' i j = L i j + sumn m (fun a => sumn m (fun b => J a i * W a b * J b j))).
Hypothesis (IC : inverse_of n L C) (IN : inverse_of m W N) (IT : inverse_of m (innovation n J C N) T).
Lemma gained e a : (a < m)%nat -> mv n J (mv n C (mv m (transposed J) (mv m T e))) a = e a - mv m N (mv m T e) a.
Proof.
  intros Ha. set (q := mv m T e). pose proof (mv_inverse m _ T e a IT Ha) as E. fold q in E. unfold innovation in E. unfold mv at 1 in E. rewrite (sumn_ext m _ (fun b => times n (times n J C) (transposed J) a b * q b + N a b * q b)) in E by (intros; ring). rewrite sumn_plus in E. fold (mv m (times n (times n J C) (transposed J)) q a) in E. fold (mv m N q a) in E. rewrite mv_times, mv_times in E. lra.
Qed.
Lemma updated x r i : (i < n)%nat ->
  mv n L' (fun j => x j + mv m (gain n m J C T) (fun a => r a - mv n J x a) j) i = mv n L x i + sumn m (fun a => sumn m (fun b => J a i * W a b * r b)).
Proof.
  intros Hi. set (e := fun a => r a - mv n J x a). set (q := mv m T e). set (y := mv n C (mv m (transposed J) q)). set (z := fun j => x j + y j).
  assert (Q : forall a, (a < m)%nat -> mv n J y a = e a - mv m N q a).
  { intros a Ha. apply (gained e a Ha). }
  assert (Lin : forall u, mv n L' u i = mv n L u i + mv m (transposed J) (mv m W (mv n J u)) i).
  { intros u. unfold mv at 1. rewrite (sumn_ext n _ (fun j => L i j * u j + sumn m (fun a => sumn m (fun b => J a i * W a b * J b j)) * u j)) by (intros j Hj; rewrite (EL i j Hi Hj); ring). rewrite sumn_plus. f_equal.
    unfold mv, transposed. transitivity (sumn n (fun j => sumn m (fun a => sumn m (fun b => J a i * (W a b * (J b j * u j)))))).
    { apply sumn_ext; intros j _. rewrite sumn_mult_r. apply sumn_ext; intros a _. rewrite sumn_mult_r. apply sumn_ext; intros; ring. }
    rewrite sumn_swap. apply sumn_ext; intros a _. rewrite sumn_swap, sumn_mult_l. apply sumn_ext; intros b _. rewrite !sumn_mult_l. reflexivity. }
  rewrite (mv_ext n L' _ z). 2:{ intros j _. unfold z. f_equal. unfold gain. rewrite mv_times. fold e q. rewrite mv_times. reflexivity. }
  rewrite Lin. unfold z. rewrite mv_plus. unfold y at 1. rewrite (mv_inverse n L C _ i IC Hi).
  assert (Z : forall a, (a < m)%nat -> mv m W (mv n J (fun j => x j + y j)) a = mv m W r a - q a).
  { intros a Ha. rewrite (mv_ext m W _ (fun b => r b - mv m N q b)). 2:{ intros b Hb. rewrite mv_plus, (Q b Hb). unfold e. ring. } rewrite mv_minus, (mv_inverse m W N q a IN Ha). reflexivity. }
  rewrite (mv_ext m (transposed J) (mv m W (mv n J (fun j => x j + y j))) (fun a => mv m W r a - q a) i Z). rewrite mv_minus.
  assert (R : mv m (transposed J) (mv m W r) i = sumn m (fun a => sumn m (fun b => J a i * W a b * r b))). { unfold mv, transposed. apply sumn_ext; intros a _. rewrite sumn_mult_l. apply sumn_ext; intros; ring. }
  rewrite R. ring.
Qed.
Lemma answered x r a : (a < m)%nat ->
  mv m W (mv n J (fun j => x j + mv m (gain n m J C T) (fun a => r a - mv n J x a) j)) a = mv m W r a - mv m T (fun a => r a - mv n J x a) a.
Proof.
  intros Ha. set (e := fun a => r a - mv n J x a). set (q := mv m T e). rewrite (mv_ext m W _ (fun b => r b - mv m N q b)).
  - rewrite mv_minus, (mv_inverse m W N q a IN Ha). reflexivity.
  - intros b Hb. rewrite mv_plus, (mv_ext n J (mv m (gain n m J C T) e) (mv n C (mv m (transposed J) q))) by (intros j _; unfold gain; rewrite !mv_times; reflexivity).
    pose proof (gained e b Hb) as Ga. fold q in Ga. rewrite Ga. unfold e. ring.
Qed.
Lemma updated_cov : inverse_of n L' (fun i j => C i j - times m (gain n m J C T) (times n J C) i j).
Proof.
  intros i j Hi Hj. rewrite <- (IC i j Hi Hj). pose proof (updated (fun k => C k j) (fun _ => 0) i Hi) as U.
  transitivity (mv n L' (fun k => C k j + mv m (gain n m J C T) (fun a => 0 - mv n J (fun k0 => C k0 j) a) k) i).
  - unfold mv at 1. apply sumn_ext; intros k _. f_equal. unfold Rminus at 1. f_equal. unfold times at 1, mv at 1. rewrite <- sumn_opp. apply sumn_ext; intros a _. unfold mv, times. ring.
  - rewrite U. unfold mv. replace (sumn m (fun a => sumn m (fun b => J a i * W a b * 0))) with 0; [ring|]. symmetry. apply sumn_zero; intros a _. apply sumn_zero; intros; ring.
Qed.
End Update.
Section Gate.
Variables (n m : nat) (L L' J W N C : nat -> nat -> R).
Hypothesis (EL : forall i j, (i < n)%nat -> (j < n)%nat -> L' i j = L i j + sumn m (fun a => sumn m (fun b => J a i * W a b * J b j))).
Hypothesis (IC : inverse_of n L C) (IN : inverse_of m W N) (NS : nonsingular n L').
Lemma new_rows u i : (i < n)%nat -> mv n L' u i = mv n L u i + mv m (transposed J) (mv m W (mv n J u)) i.
Proof using EL.
  intros Hi. unfold mv at 1. rewrite (sumn_ext n _ (fun j => L i j * u j + sumn m (fun a => sumn m (fun b => J a i * W a b * J b j)) * u j)) by (intros j Hj; rewrite (EL i j Hi Hj); ring). rewrite sumn_plus. f_equal.
  unfold mv, transposed. transitivity (sumn n (fun j => sumn m (fun a => sumn m (fun b => J a i * (W a b * (J b j * u j)))))).
  { apply sumn_ext; intros j _. rewrite sumn_mult_r. apply sumn_ext; intros a _. rewrite sumn_mult_r. apply sumn_ext; intros; ring. }
  rewrite sumn_swap. apply sumn_ext; intros a _. rewrite sumn_swap, sumn_mult_l. apply sumn_ext; intros b _. rewrite !sumn_mult_l. reflexivity.
Qed.
Lemma gate_nonsingular : nonsingular m (innovation n J C N).
Proof.
  intros q Hq. set (y := mv n C (mv m (transposed J) q)).
  assert (Q : forall a, (a < m)%nat -> mv n J y a = - mv m N q a).
  { intros a Ha. pose proof (Hq a Ha) as E. unfold innovation in E. rewrite (sumn_ext m _ (fun b => times n (times n J C) (transposed J) a b * q b + N a b * q b)) in E by (intros; ring). rewrite sumn_plus in E. fold (mv m (times n (times n J C) (transposed J)) q a) in E. fold (mv m N q a) in E. rewrite mv_times, mv_times in E. fold y in E. lra. }
  assert (Zy : forall j, (j < n)%nat -> y j = 0).
  { apply NS. intros i Hi. fold (mv n L' y i). rewrite (new_rows y i Hi). unfold y at 1. rewrite (mv_inverse n L C _ i IC Hi).
    rewrite (mv_ext m (transposed J) (mv m W (mv n J y)) (fun a => 0 - q a)).
    - rewrite mv_minus. unfold mv at 2. rewrite (sumn_zero m) by (intros; ring). ring.
    - intros a Ha. rewrite (mv_ext m W (mv n J y) (fun b => 0 - mv m N q b)) by (intros b Hb; rewrite (Q b Hb); ring). rewrite mv_minus, (mv_inverse m W N q a IN Ha). unfold mv. rewrite (sumn_zero m) by (intros; ring). ring. }
  intros a Ha. rewrite <- (mv_inverse m W N q a IN Ha). unfold mv at 1. apply sumn_zero; intros b Hb. replace (mv m N q b) with (- mv n J y b) by (rewrite (Q b Hb); ring). unfold mv. rewrite (sumn_zero n) by (intros j Hj; rewrite (Zy j Hj); ring). ring.
Qed.
End Gate.

Lemma one_more cs c f : call_factor c = Some f -> grown cs (cs ++ [c]) [] [c] /\ flat_map facts [c] = [f] /\ flat_map facts (cs ++ [c]) = flat_map facts cs ++ [f].
Proof.
  intros E. assert (F : flat_map facts [c] = [f]) by (cbn; unfold facts; rewrite E; reflexivity).
  split; [|split; auto; rewrite flat_map_app, F; reflexivity]. split.
  - rewrite app_nil_r. f_equal. unfold nodes_of. rewrite flat_map_app. destruct c; try discriminate E; cbn; apply app_nil_r.
  - rewrite filter_app. assert (Z : filter measures [c] = [c]) by (cbn [filter]; unfold measures; rewrite E; reflexivity). rewrite Z. apply Permutation.Permutation_refl.
Qed.
Lemma session_problem lin rob cs s : typed [] cs -> Forall call_info cs -> rob <> RANSAC -> pycalls lin rob (solver_new world_new) cs = Some s ->
  exists b, build_problem false s = Some b /\ inv rob cs (s_w s) /\ in_order (s_w s) /\
    (forall x y, form (g_stateDim (w_graph (s_w s))) (s_L b) x y = gn_form (s_w s) x y) /\ (forall x y, form (g_stateDim (w_graph (s_w s))) (s_L b) x y = form (g_stateDim (w_graph (s_w s))) (s_L b) y x) /\
    (forall x, sumn (g_stateDim (w_graph (s_w s))) (fun i => s_b b i * x i) = gn_rhs (s_w s) x) /\
    forall i lf l x, nth_error (g_factors (w_graph (s_w s))) i = Some lf -> (l < fdim (s_w s) lf)%nat -> sumn (g_stateDim (w_graph (s_w s))) (fun q => Amat b (row (s_w s) i + l) q * x q) = jac_times (s_w s) lf (increments (s_w s) x) l.
Proof.
  intros Ty P NR E. destruct (build_forms lin rob cs s Ty P NR E) as (b & Eb & V & O & _ & F & S & _). exists b. split; auto. split; auto. split; auto. split; auto. split; auto.
  pose proof (gd_wf _ (iv_good _ _ _ V)) as Wf. destruct (build_wf s Wf) as (b0 & Eb0 & B). unfold build_problem in Eb. rewrite Eb0 in Eb. injection Eb as <-. split.
  - intros x. unfold gn_rhs. apply (normal_rhs s b0 x Wf B).
  - intros i lf l x Hi Hl. apply (A_row s b0 i lf l x Wf B Hi Hl).
Qed.
Section Last.
Variables (lin lin' : linear_solver) (cs : list pycall) (c : pycall) (cl : fclass) (ids : list nat) (W : nat -> nat -> R) (s s' : solver) (rob : robust_type).
Hypothesis (NR : rob <> RANSAC) (Ty : typed [] cs) (Ty' : typed [] (cs ++ [c])) (P' : Forall call_info (cs ++ [c])) (Ec : call_factor c = Some (cl, ids, W)).
Hypothesis (E : pycalls lin rob (solver_new world_new) cs = Some s) (E' : pycalls lin' rob (solver_new world_new) (cs ++ [c]) = Some s').
Hypothesis (Same : forall i, (i < length (nodes_of cs))%nat -> state_of (s_w s') i = state_of (s_w s) i).
Let n := g_stateDim (w_graph (s_w s)).
Let M := g_obsDim (w_graph (s_w s)).
Let m := fc_dim cl.
Let r := fc_res cl (map (state_of (s_w s')) ids).
Let Wo := fun a k => f_w rob (state_of (s_w s')) (cl, ids, W) * W a k.
Lemma last_problem : exists b b', build_problem false s = Some b /\ build_problem false s' = Some b' /\ g_stateDim (w_graph (s_w s')) = n /\ g_obsDim (w_graph (s_w s')) = (M + m)%nat /\
  (forall i j, (i < n)%nat -> (j < n)%nat -> s_L b' i j = s_L b i j + sumn m (fun a => sumn m (fun k => Amat b' (M + a) i * Wo a k * Amat b' (M + k) j))) /\
  (forall i, (i < n)%nat -> s_b b' i = s_b b i + sumn m (fun a => sumn m (fun k => Amat b' (M + a) i * Wo a k * r k))) /\
  (forall x y, form n (s_L b) x y = form n (s_L b) y x) /\ (forall x y, form n (s_L b') x y = form n (s_L b') y x).
Proof.
  assert (P : Forall call_info cs) by (apply Forall_app in P'; apply P').
  destruct (one_more cs c _ Ec) as (G & F1 & F2).
  destruct (session_problem lin rob cs s Ty P NR E) as (b & Eb & V & O & Fo & S & Rh & _). destruct (session_problem lin' rob _ s' Ty' P' NR E') as (b' & Eb' & V' & O' & Fo' & S' & Rh' & Ro).
  exists b, b'. split; auto. split; auto.
  set (K := length (flat_map facts cs)). pose proof (iv_tracks _ _ _ V) as T. pose proof (iv_tracks _ _ _ V') as T'. 
  assert (Nk : nth_error (flat_map facts (cs ++ [c])) K = Some (cl, ids, W)) by (rewrite F2, nth_error_app2, Nat.sub_diag by (unfold K; lia); reflexivity).
  destruct (tk_cls _ _ _ T' K cl ids W Nk) as (D & _).
  assert (Gk : g_factors (w_graph (s_w s')) = g_factors (w_graph (s_w s)) ++ [K]) by (rewrite (tk_fac _ _ _ T), (tk_fac _ _ _ T'), F2, app_length; cbn [length]; rewrite seq_app; reflexivity).
  assert (Len : length (g_factors (w_graph (s_w s))) = K) by (rewrite (tk_fac _ _ _ T), seq_length; reflexivity).
  assert (Dim : map (fdim (s_w s')) (g_factors (w_graph (s_w s))) = map (fdim (s_w s)) (g_factors (w_graph (s_w s)))).
  { apply map_ext_in. intros k I. rewrite (tk_fac _ _ _ T), in_seq in I. destruct (nth_error (flat_map facts cs) k) as [[[cl0 ids0] W0]|] eqn:Ek; [|apply nth_error_None in Ek; lia].
    unfold fdim. destruct (tk_cls _ _ _ T k cl0 ids0 W0 Ek) as (-> & _). destruct (tk_cls _ _ _ T' k cl0 ids0 W0) as (-> & _); [rewrite F2, nth_error_app1 by lia; exact Ek|reflexivity]. }
  assert (Row : row (s_w s') K = M). { unfold row, before. rewrite Gk, firstn_app, Len, Nat.sub_diag. rewrite <- Len, firstn_all, app_nil_r, Dim. symmetry. apply (wf_obs _ (gd_wf _ (iv_good _ _ _ V))). }
  assert (En : g_stateDim (w_graph (s_w s')) = n).
  { rewrite (grown_dim rob cs (cs ++ [c]) (s_w s) (s_w s') [] [c] V V' O O' G Same). fold n. replace (filter _ _) with (@nil nat); [cbn; lia|]. symmetry.
    assert (Z : forall l, In l (g_active (w_graph (s_w s'))) -> (l <? length (nodes_of cs))%nat = true).
    { intros l I. apply Nat.ltb_lt. pose proof (active_below rob (cs ++ [c]) (s_w s') V' O' l I) as H. destruct G as [G _]. apply (f_equal (@length _)) in G. rewrite app_nil_r, !map_length in G. lia. }
    revert Z. generalize (g_active (w_graph (s_w s'))). induction l as [|a l IH]; intros Z; [reflexivity|]. cbn [filter]. rewrite (Z a) by (left; reflexivity). cbn [negb]. apply IH. intros; apply Z; right; auto. }
  split; auto.
  split. { rewrite (wf_obs _ (gd_wf _ (iv_good _ _ _ V'))), Gk, map_app, lsumn_app, Dim. unfold M. rewrite (wf_obs _ (gd_wf _ (iv_good _ _ _ V))). f_equal. cbn. unfold fdim. rewrite D. unfold m. lia. }
  rewrite En in *.
  assert (Jx : forall x a, (a < m)%nat -> f_jd (state_of (s_w s')) (inc_of (s_w s') x) cl ids a = sumn n (fun q => Amat b' (M + a) q * x q)).
  { intros x a Ha. rewrite <- Row. rewrite (Ro K K a x). 2:{ rewrite Gk, nth_error_app2, Len, Nat.sub_diag by lia. reflexivity. } 2:{ unfold fdim. rewrite D. exact Ha. }
    destruct (jac_times_class rob _ (s_w s') K cl ids W x a V' Nk) as [_ ->]. reflexivity. }
  assert (Ju : forall i a, (i < n)%nat -> (a < m)%nat -> f_jd (state_of (s_w s')) (inc_of (s_w s') (fun k => if Nat.eqb k i then 1 else 0)) cl ids a = Amat b' (M + a) i).
  { intros i a Hi Ha. rewrite Jx by auto. rewrite <- (Chain.dot_unit n (fun q => Amat b' (M + a) q) i Hi). apply sumn_ext; intros; ring. }
  split; [|split; [|split; auto]].
  - intros i j Hi Hj. rewrite <- (unit_form n (s_L b') i j Hi Hj), <- (unit_form n (s_L b) i j Hi Hj), Fo', Fo.
    rewrite (grown_form rob cs (cs ++ [c]) (s_w s) (s_w s') [] [c] V V' O O' G P P' NR Same). f_equal. rewrite F1. rewrite lsum_cons, lsum_nil. unfold f_f. rewrite Rplus_0_r. fold m. unfold quad. rewrite sumn_mult_l.
    apply sumn_ext; intros a Ha. rewrite sumn_mult_l. apply sumn_ext; intros k Hk. rewrite !Ju by auto. unfold Wo. ring.
  - intros i Hi. assert (Ub : forall v, sumn n (fun k => v k * (if Nat.eqb k i then 1 else 0)) = v i) by (intros v; rewrite <- (Chain.dot_unit n v i Hi); apply sumn_ext; intros; ring).
    rewrite <- (Ub (s_b b')), <- (Ub (s_b b)), Rh', Rh. rewrite (grown_rhs rob cs (cs ++ [c]) (s_w s) (s_w s') [] [c] V V' O O' G P P' NR Same). f_equal. rewrite F1. rewrite lsum_cons, lsum_nil. unfold f_g. rewrite Rplus_0_r. fold m r. unfold quad. rewrite sumn_mult_l.
    apply sumn_ext; intros a Ha. rewrite sumn_mult_l. apply sumn_ext; intros k Hk. rewrite !Ju by auto. unfold Wo. ring.
Qed.
End Last.
(** the part of the linearised cost that does not depend on the increments *)
Definition f_s (rob : robust_type) (st : nat -> nval) (f : fact) : R := f_w rob st f * (2 * f_c st f).
Section Start.
Variables (rob : robust_type) (NR : rob <> RANSAC).
Lemma cost_start cs w : inv rob cs w -> lsum (g_factors (w_graph w)) (fun l => weight_at w l * quad (fdim w l) (f_info (fa w l)) (res_at w l) (res_at w l)) = lsum (flat_map facts cs) (f_s rob (state_of w)).
Proof using NR.
  intros V. rewrite (tk_fac _ _ _ (iv_tracks _ _ _ V)). apply lsum_seq_list. intros k f Ek. cbn [Nat.add].
  destruct (fact_cost rob cs w V NR k f Ek) as [Ec ->]. unfold f_s. rewrite <- Ec. unfold fchi2. lra.
Qed.
Lemma start_value lin cs s b : typed [] cs -> Forall call_info cs -> pycalls lin rob (solver_new world_new) cs = Some s -> build_problem false s = Some b ->
  quad (g_obsDim (w_graph (s_w s))) (Wmat b) (s_r b) (s_r b) = lsum (flat_map facts cs) (f_s rob (state_of (s_w s))).
Proof using NR.
  intros Ty P E Eb. destruct (session_fit lin rob cs s b Ty P NR E Eb) as [Wf F]. destruct (session_problem lin rob cs s Ty P NR E) as (b1 & Eb1 & V & _ & Fo & _ & Rh & _). rewrite Eb in Eb1. injection Eb1 as <-.
  rewrite <- (cost_start cs (s_w s) V). destruct (inv_infos rob cs (s_w s) V P NR) as (Sy & _). pose proof (ft_cost _ _ _ _ F (fun _ => 0)) as A. rewrite (lin_cost_gn (s_w s) (fun _ => 0) Sy), <- Fo, <- Rh in A. unfold dot in A. lra.
Qed.
Lemma start_more cs c f w w' : inv rob cs w -> call_factor c = Some f -> (forall i, (i < length (nodes_of cs))%nat -> state_of w' i = state_of w i) ->
  lsum (flat_map facts (cs ++ [c])) (f_s rob (state_of w')) = lsum (flat_map facts cs) (f_s rob (state_of w)) + f_s rob (state_of w') f.
Proof using NR.
  intros V Ec Same. destruct (one_more cs c f Ec) as (_ & _ & ->). rewrite lsum_app, lsum_cons, lsum_nil, Rplus_0_r. f_equal. apply lsum_ext. intros [[cl ids] W] I. pose proof (facts_bound rob cs w cl ids W V I) as B. rewrite Forall_forall in B.
  unfold f_s, f_w, f_c. rewrite (map_ext_in (state_of w') (state_of w) ids) by (intros j Jj; apply Same, B, Jj). reflexivity.
Qed.
End Start.
Lemma dot_mv n m A x q : dot n (mv m A q) x = dot m q (mv n (transposed A) x).
Proof. unfold dot, mv, transposed. rewrite (sumn_ext n _ (fun i => sumn m (fun j => q j * (A i j * x i)))). 2:{ intros i _. rewrite sumn_mult_r. apply sumn_ext; intros; ring. } rewrite sumn_swap. apply sumn_ext; intros j _. rewrite sumn_mult_l. reflexivity. Qed.
