(** C100: one more measurement. *)
Require Import Reals List Arith Lia Lra Bool Permutation.
From Verif Require Import Lin LinFacts SpecGeom SO3 SE3 SO3Misc SE3Alg Nodes NodesProofs Robust Graph GraphProofs Sums Solve SpecSolve SolveFrame SolveSums SolveBuild SolveProofs Session SessionProofs.
From Verif Require Import Factors SpecFactors FactorsSession FrameSolve SpecFrame SpecSolvable SolvableFactors SolvableSession MappingSession Reorder PropSolve PropFrame PropSolvable PropMapping PropFactors SpecLocate SpecChain Chain SpecGrow Grow PropGrow SpecDof Dof SpecKalman Kalman.
Import ListNotations.
Local Open Scope R_scope.

(** *** Solving again with one more measurement is a Kalman update of the covariance and of
    the solution of the normal equations; the least cost grows by the square of the
    innovation, weighed by its covariance *)
Theorem C100_update : forall lin lin' rob cs c cl ids W s s', rob <> RANSAC -> typed [] cs -> typed [] (cs ++ [c]) -> Forall call_info (cs ++ [c]) -> call_factor c = Some (cl, ids, W) ->
  pycalls lin rob (solver_new world_new) cs = Some s -> pycalls lin' rob (solver_new world_new) (cs ++ [c]) = Some s' ->
  (forall i, (i < length (nodes_of cs))%nat -> state_of (s_w s') i = state_of (s_w s) i) ->
  exists b b', build_problem false s = Some b /\ build_problem false s' = Some b' /\
  let n := g_stateDim (w_graph (s_w s)) in let M := g_obsDim (w_graph (s_w s)) in let m := fc_dim cl in
  let J := fun a i => Amat b' (M + a) i in let r := fc_res cl (map (state_of (s_w s')) ids) in
  let Wo := fun a i => robust_eval rob 0 (sqrt (1 / 2 * quad m W r r)) * W a i in
  g_stateDim (w_graph (s_w s')) = n /\ g_obsDim (w_graph (s_w s')) = (M + m)%nat /\
  forall C N, inverse_of n (s_L b) C -> inverse_of m Wo N ->
  exists T, inverse_of m (innovation n J C N) T /\ inverse_of n (s_L b') (fun i j => C i j - times m (gain n m J C T) (times n J C) i j) /\
  forall x x', (forall i, (i < n)%nat -> sumn n (fun j => s_L b i j * x j) = s_b b i) -> (forall i, (i < n)%nat -> sumn n (fun j => s_L b' i j * x' j) = s_b b' i) ->
  let nu := fun a => r a - sumn n (fun p => J a p * x p) in
  (forall i, (i < n)%nat -> x' i = x i + sumn m (fun a => gain n m J C T i a * nu a)) /\
  forall k k', least_cost (s_w s) k -> least_cost (s_w s') k' -> k' = k + quad m T nu nu.
Proof.
  intros lin lin' rob cs c cl ids W s s' NR Ty Ty' P' Ec E E' Same. assert (P : Forall call_info cs) by (apply Forall_app in P'; apply P').
  destruct (last_problem lin lin' cs c cl ids W s s' rob NR Ty Ty' P' Ec E E' Same) as (b & b' & Eb & Eb' & En & EM & EL & ER & Sy & Sy'). exists b, b'. split; auto. split; auto. cbv zeta.
  set (n := g_stateDim (w_graph (s_w s))) in *. set (M := g_obsDim (w_graph (s_w s))) in *. set (m := fc_dim cl) in *. set (J := fun a i => Amat b' (M + a) i) in *. set (r := fc_res cl (map (state_of (s_w s')) ids)) in *.
  change (robust_eval rob 0 (sqrt (1 / 2 * quad m W r r))) with (f_w rob (state_of (s_w s')) (cl, ids, W)). set (om := f_w rob (state_of (s_w s')) (cl, ids, W)) in *. set (Wo := fun a i => om * W a i) in *.
  split; auto. split; auto. intros C N IC IN.
  destruct (session_fit lin rob cs s b Ty P NR E Eb) as [Wf F]. destruct (session_fit lin' rob _ s' b' Ty' P' NR E' Eb') as [Wf' F']. fold n M in F. rewrite En, EM in F'.
  assert (Sw : sym_on m Wo). { rewrite Forall_forall in P'. pose proof (P' c ltac:(apply in_or_app; right; left; reflexivity)) as Pc. unfold call_info in Pc. rewrite Ec in Pc. destruct Pc as [Sm _]. intros i j Hi Hj. unfold Wo. f_equal. apply (Sm i j Hi Hj). }
  assert (NS' : nonsingular n (s_L b') /\ nonsingular n (s_L b)).
  { destruct (one_more cs c _ Ec) as (G & _ & _). destruct (C96_determined lin lin' rob cs (cs ++ [c]) s s' [c] Ty Ty' P P' NR E E' G Same) as (b1 & b2 & Eb1 & Eb2 & _ & D). rewrite Eb in Eb1. rewrite Eb' in Eb2. injection Eb1 as <-. injection Eb2 as <-. fold n in D.
    assert (NS : nonsingular n (s_L b)) by (apply (inverse_nonsingular n (s_L b) C); auto). auto. }
  destruct NS' as [NS' NS].
  destruct (inverse_exists m _ (gate_nonsingular n m (s_L b) (s_L b') J Wo N C EL IC IN NS')) as [T IT]. exists T. split; auto. split; [apply (updated_cov n m (s_L b) (s_L b') J Wo N C T EL IC IN IT)|].
  intros x x' Hx Hx'. set (nu := fun a => r a - sumn n (fun p => J a p * x p)). set (y := fun i => sumn m (fun a => gain n m J C T i a * nu a)).
  assert (X : forall i, (i < n)%nat -> x' i = x i + y i).
  { apply (nonsingular_unique n (s_L b') x' (fun i => x i + y i) NS'). intros i Hi. rewrite (Hx' i Hi), (ER i Hi), <- (Hx i Hi). symmetry. apply (updated n m (s_L b) (s_L b') J Wo N C T EL IC IN IT x r i Hi). }
  split; [exact X|]. intros k k' Lk Lk'.
  assert (Vx : forall bb CC z, nonsingular n (s_L bb) -> inverse_of n (s_L bb) CC -> (forall i, (i < n)%nat -> sumn n (fun j => s_L bb i j * z j) = s_b bb i) -> quad n CC (s_b bb) (s_b bb) = dot n (s_b bb) z).
  { intros bb CC z Nb Ib Hz. rewrite quad_apply. unfold dot. apply sumn_ext; intros i Hi. f_equal. revert i Hi. apply (nonsingular_unique n (s_L bb)); auto. intros i Hi. rewrite (Hz i Hi). apply (mv_inverse n (s_L bb) CC (s_b bb) i Ib Hi). }
  destruct (inverse_exists n (s_L b') NS') as [C' IC'].
  rewrite (least_value s b M n C k Wf F IC Lk), (least_value s' b' (M + m) n C' k' Wf' F' IC' Lk'), (Vx b C x NS IC Hx), (Vx b' C' x' NS' IC' Hx').
  pose proof (start_value rob NR lin cs s b Ty P E Eb) as S0. fold M in S0. rewrite S0. pose proof (start_value rob NR lin' _ s' b' Ty' P' E' Eb') as S1. rewrite EM in S1. rewrite S1.
  assert (V : inv rob cs (s_w s)) by (destruct (build_forms lin rob cs s Ty P NR E) as (b1 & _ & V & _); exact V).
  rewrite (start_more rob NR cs c _ (s_w s) (s_w s') V Ec Same).
  assert (Fs : f_s rob (state_of (s_w s')) (cl, ids, W) = quad m Wo r r). { unfold f_s. fold om. unfold f_c. fold m r. transitivity (om * quad m W r r); [lra|]. unfold quad. rewrite sumn_mult_l. apply sumn_ext; intros a _. rewrite sumn_mult_l. apply sumn_ext; intros h _. unfold Wo. ring. }
  rewrite Fs.
  set (q := mv m T nu).
  assert (Wq : forall a, (a < m)%nat -> mv m Wo (mv n J x') a = mv m Wo r a - q a).
  { intros a Ha. transitivity (mv m Wo (mv n J (fun j => x j + mv m (gain n m J C T) (fun a => r a - mv n J x a) j)) a); [|exact (answered n m J Wo N C T IN IT x r a Ha)]. apply mv_ext. intros k0 Hk. apply mv_ext. intros j Hj. apply (X j Hj). }
  assert (D : forall h (u v : nat -> R), dot h u v = dot h v u) by (intros; unfold dot; apply sumn_ext; intros; ring).
  assert (Yq : forall i, (i < n)%nat -> y i = mv n C (mv m (transposed J) q) i) by (intros i _; unfold y; fold (mv m (gain n m J C T) nu i); unfold gain; rewrite !mv_times; reflexivity).
  assert (B1 : dot n (s_b b) y = dot m (mv n J x) q).
  { transitivity (form n (s_L b) y x). { rewrite form_rows, D. unfold dot. apply sumn_ext; intros i Hi. rewrite (Hx i Hi). reflexivity. }
    rewrite Sy, form_rows. transitivity (dot n x (mv m (transposed J) q)).
    { unfold dot. apply sumn_ext; intros i Hi. f_equal. rewrite <- (mv_inverse n (s_L b) C (mv m (transposed J) q) i IC Hi). apply mv_ext. exact Yq. }
    rewrite D, dot_mv, D. reflexivity. }
  assert (B2 : dot n (fun i => sumn m (fun a => sumn m (fun h => J a i * Wo a h * r h))) x' = dot m r (mv m Wo (mv n J x'))).
  { transitivity (dot n (mv m (transposed J) (mv m Wo r)) x'). { unfold dot. apply sumn_ext; intros i _. f_equal. unfold mv, transposed. apply sumn_ext; intros a _. rewrite sumn_mult_l. apply sumn_ext; intros; ring. }
    rewrite dot_mv. change (transposed (transposed J)) with J. rewrite dot_mv. unfold dot. apply sumn_ext; intros a Ha. f_equal. unfold mv at 1 3, transposed. apply sumn_ext; intros h Hh. rewrite (Sw h a Hh Ha). reflexivity. }
  assert (B : dot n (s_b b') x' = dot n (s_b b) x + dot m (mv n J x) q + (quad m Wo r r - dot m r q)).
  { transitivity (dot n (s_b b) x' + dot n (fun i => sumn m (fun a => sumn m (fun h => J a i * Wo a h * r h))) x').
    - unfold dot. rewrite <- sumn_plus. apply sumn_ext; intros i Hi. rewrite (ER i Hi). unfold J, Wo. ring.
    - rewrite B2. f_equal.
      + rewrite <- B1. unfold dot. rewrite <- sumn_plus. apply sumn_ext; intros i Hi. rewrite (X i Hi). ring.
      + rewrite quad_apply. unfold dot, Rminus. rewrite <- sumn_opp, <- sumn_plus. apply sumn_ext; intros a Ha. rewrite (Wq a Ha). unfold mv. ring. }
  rewrite B. assert (Q : quad m T nu nu = dot m r q - dot m (mv n J x) q). { rewrite quad_apply. unfold dot, Rminus. rewrite <- sumn_opp, <- sumn_plus. apply sumn_ext; intros a Ha. fold (mv m T nu a). fold q. unfold nu at 1, mv. ring. }
  rewrite Q. lra.
Qed.
Print Assumptions C100_update.

(** *** With the quadratic cost, N is the inverse of the information that was passed *)
Theorem C100_quadratic : forall lin lin' cs c cl ids W s s', typed [] cs -> typed [] (cs ++ [c]) -> Forall call_info (cs ++ [c]) -> call_factor c = Some (cl, ids, W) ->
  pycalls lin QUADRATIC (solver_new world_new) cs = Some s -> pycalls lin' QUADRATIC (solver_new world_new) (cs ++ [c]) = Some s' ->
  (forall i, (i < length (nodes_of cs))%nat -> state_of (s_w s') i = state_of (s_w s) i) ->
  exists b b', build_problem false s = Some b /\ build_problem false s' = Some b' /\
  let n := g_stateDim (w_graph (s_w s)) in let M := g_obsDim (w_graph (s_w s)) in let m := fc_dim cl in
  let J := fun a i => Amat b' (M + a) i in let r := fc_res cl (map (state_of (s_w s')) ids) in
  forall C N, inverse_of n (s_L b) C -> inverse_of m W N ->
  exists T, inverse_of m (innovation n J C N) T /\ inverse_of n (s_L b') (fun i j => C i j - times m (gain n m J C T) (times n J C) i j) /\
  forall x x', (forall i, (i < n)%nat -> sumn n (fun j => s_L b i j * x j) = s_b b i) -> (forall i, (i < n)%nat -> sumn n (fun j => s_L b' i j * x' j) = s_b b' i) ->
  let nu := fun a => r a - sumn n (fun p => J a p * x p) in
  (forall i, (i < n)%nat -> x' i = x i + sumn m (fun a => gain n m J C T i a * nu a)) /\
  forall k k', least_cost (s_w s) k -> least_cost (s_w s') k' -> k' = k + quad m T nu nu.
Proof.
  intros lin lin' cs c cl ids W s s' Ty Ty' P' Ec E E' Same. destruct (C100_update lin lin' QUADRATIC cs c cl ids W s s' ltac:(discriminate) Ty Ty' P' Ec E E' Same) as (b & b' & Eb & Eb' & _ & _ & U). exists b, b'. split; auto. split; auto.
  intros n M m J r C N IC IN. apply (U C N IC). intros i j Hi Hj. rewrite <- (IN i j Hi Hj). apply sumn_ext; intros k _. cbn [robust_eval]. ring.
Qed.
Print Assumptions C100_quadratic.

(** the loop closure of a path of three poses *)
Definition closure : pycall := C2Poses3d (m4mul step1 step1) 0 2 id3 false.
Example C100_ex : forall lin, exists s s', typed [] path_calls /\ typed [] (path_calls ++ [closure]) /\ Forall call_info (path_calls ++ [closure]) /\
  (exists cl, call_factor closure = Some (cl, [0%nat; 2%nat], id3) /\ fc_dim cl = 6%nat) /\ inverse_of 6 id3 id3 /\
  pycalls lin QUADRATIC (solver_new world_new) path_calls = Some s /\ pycalls lin QUADRATIC (solver_new world_new) (path_calls ++ [closure]) = Some s' /\
  (forall i, (i < length (nodes_of path_calls))%nat -> state_of (s_w s') i = state_of (s_w s) i) /\
  exists b C, build_problem false s = Some b /\ inverse_of (g_stateDim (w_graph (s_w s))) (s_L b) C.
Proof.
  intros lin. destruct (C96_ex lin QUADRATIC) as (s & s1 & s2 & T & T1 & _ & P & P1 & _ & _ & E & E1 & _ & _ & _ & _ & Sa). exists s, s1.
  split; auto. split; auto. split; auto. split. { eexists. split; reflexivity. }
  split. { intros i j Hi Hj. change (if Nat.eqb i j then 1 else 0) with (id3 i j). rewrite <- (Chain.dot_unit 6 (fun k => id3 k j) i Hi). apply sumn_ext; intros k _. unfold id3 at 1. rewrite Nat.eqb_sym. reflexivity. }
  split; auto. split; auto. split. { intros i Hi. apply (Sa i Hi). }
  assert (So : Forall solid_call path_calls) by (unfold path_calls; repeat (apply Forall_cons; [first [exact I|exact loop_solid|exact (rigid_solid _ (trans_rigid _))|exact (rigid_solid _ rigid_id)]|]); apply Forall_nil).
  assert (H0 : held path_calls 0) by (eapply held_anchor; reflexivity).
  assert (H1 : held path_calls 1) by (eapply held_2poses3d; [|apply (id_positive 6)|exact H0]; unfold path_calls; cbn; auto 20).
  assert (H : forall i, (i < length (nodes_of path_calls))%nat -> held path_calls i) by (intros i Hi; cbn in Hi; destruct i as [|[|[|i]]]; auto; try lia; eapply held_2poses3d; [|apply (id_positive 6)|exact H1]; unfold path_calls; cbn; auto 20).
  destruct (C80_held lin QUADRATIC path_calls ltac:(discriminate) T So P H) as (s0 & b & E0 & Eb & NS). rewrite E in E0. injection E0 as <-. destruct (inverse_exists _ _ NS) as [C IC]. exists b, C. auto.
Qed.
