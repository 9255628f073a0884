(** C83: Levenberg-Marquardt finds the same map, as closely as it is asked to. *)
Require Import Reals List Arith Lia Lra Bool.
From Verif Require Import Lin SpecGeom SO3 SE3 Nodes Robust Graph Sums Solve SpecSolve SolveSums SolveProofs Session SessionProofs.
From Verif Require Import Factors SpecFactors SpecFrame Gauss FrameSolve SpecSolvable SolvableSession DenseProofs PropFrame PropSolvable SpecMapping MappingSession PropMapping SpecLMMapping LMMapping.
Import ListNotations.
Local Open Scope R_scope.

Lemma session_ready lin cs mu s : typed [] cs -> Forall solid_call cs -> pycalls lin QUADRATIC (solver_new world_new) cs = Some s -> well_seen mu cs (state_of (s_w s)) -> ready cs mu (s_w s).
Proof. intros T So E Ws. destruct (session_inv lin QUADRATIC cs T) as (s0 & E0 & V & Fi). rewrite E in E0. injection E0 as <-. split; auto. Qed.

(** *** The excess over the smallest chi2 there is *)
Theorem C83_excess : forall lin cs mu k lambda tol k' lambda' tol' s, exact lin -> typed [] cs -> mapping cs -> Forall solid_call cs -> Forall call_info cs ->
  0 < mu -> pycalls lin QUADRATIC (solver_new world_new) cs = Some s -> well_seen mu cs (state_of (s_w s)) ->
  exists t best, solve lin LM k lambda tol s = Some t /\ solve lin GN k' lambda' tol' s = Some best /\
    let c := / (400000 * mu) in let excess := fun x => chi2_of (s_w x) - chi2_of (s_w best) in
    rearranged cs (state_of (s_w s)) (state_of (s_w t)) /\ 0 <= excess t /\
    (excess t <= shrink c (Nat.max 1 k) * excess s \/ (1 - c) * excess t <= c * tol).
Proof.
  intros lin cs mu k la tol k' la' tol' s X T Mp So P Pm E Ws. pose proof (session_ready lin cs mu s T So E Ws) as Re. pose proof (gd_wf _ (iv_good _ _ _ (proj1 Re))) as Wf.
  destruct (solve_total lin LM k la tol s Wf) as [t Et]. destruct (solve_total lin GN k' la' tol' s Wf) as [g Eg]. exists t, g. split; auto. split; auto.
  destruct (lm_result lin cs mu X T Mp So P Pm k la tol k' la' tol' s t g Re Et Eg) as (_ & A & B & C). auto.
Qed.
Print Assumptions C83_excess.

(** *** Every landmark is close to its best position *)
Theorem C83_distance : forall lin cs mu k lambda tol k' lambda' tol' s t best j, exact lin -> typed [] cs -> mapping cs -> Forall solid_call cs -> Forall call_info cs ->
  0 < mu -> pycalls lin QUADRATIC (solver_new world_new) cs = Some s -> well_seen mu cs (state_of (s_w s)) ->
  solve lin LM k lambda tol s = Some t -> solve lin GN k' lambda' tol' s = Some best -> (j < length (nodes_of cs))%nat ->
  mu * sq_dist (state_of (s_w t) j) (state_of (s_w best) j) <= 2 * (chi2_of (s_w t) - chi2_of (s_w best)).
Proof.
  intros lin cs mu k la tol k' la' tol' s t g j X T Mp So P Pm E Ws Et Eg Hj. pose proof (session_ready lin cs mu s T So E Ws) as Re.
  destruct (lm_result lin cs mu X T Mp So P Pm k la tol k' la' tol' s t g Re Et Eg) as (Ret & A & _).
  destruct (solve_total lin GN k' la' tol' t (gd_wf _ (iv_good _ _ _ (proj1 Ret)))) as [g' Eg'].
  destruct (same_best lin cs mu X T Mp So P Pm k' la' tol' k' la' tol' s t g g' Re Ret A Eg Eg') as (Q & U). rewrite <- Q, <- (U j Hj).
  apply (near_best lin cs mu X T Mp So P Pm k' la' tol' t g' j Ret Eg' Hj).
Qed.
Print Assumptions C83_distance.

(** *** No pass of the loop is rejected, and lambda only gets smaller *)
Theorem C83_passes : forall lin cs mu es s t, exact lin -> typed [] cs -> mapping cs -> Forall solid_call cs -> Forall call_info cs ->
  0 < mu -> pycalls lin QUADRATIC (solver_new world_new) cs = Some s -> well_seen mu cs (state_of (s_w s)) ->
  iters lin es (with_lambda s (1 / 100000)) t -> ~ In Converged es -> ~ In Rejected es /\ s_lambda t <= 1 / 100000 /\ chi2_of (s_w t) <= chi2_of (s_w s).
Proof.
  intros lin cs mu es s t X T Mp So P Pm E Ws It NC. pose proof (session_ready lin cs mu s T So E Ws) as Re. pose proof (gd_wf _ (iv_good _ _ _ (proj1 Re))) as Wf.
  destruct (solve_total lin GN 0 0 0 s Wf) as [g Eg]. set (s0 := with_lambda s (1 / 100000)) in *.
  assert (G : forall es s0 t, iters lin es s0 t -> ready cs mu (s_w s0) -> 0 < s_lambda s0 -> ~ In Converged es -> ~ In Rejected es /\ s_lambda t <= s_lambda s0 /\ chi2_of (s_w t) <= chi2_of (s_w s0)); [|destruct (G es s0 t It Re ltac:(cbn; lra) NC) as (A & B & C); split; auto].
  clear - X T Mp So P Pm. induction es as [|e es IH]; intros s t It Re Pl NC; inversion It; subst. { split; [intros []|]. split; lra. }
  match goal with H : lm_iter lin s = Some (?x, e) |- _ => rename x into sm; rename H into Is end.
  destruct (solve_total lin GN 0 0 0 s (gd_wf _ (iv_good _ _ _ (proj1 Re)))) as [g Eg].
  destruct (pass lin cs mu X T Mp So P Pm 0 0 0 s sm e g Re Pl Is Eg) as (NR & Re' & _ & _ & _ & Ac & Dc).
  assert (Ea : e = Accepted) by (destruct e; [exfalso; apply NR; reflexivity|exfalso; apply NC; left; reflexivity|reflexivity]). specialize (Ac Ea).
  match goal with H : iters lin es sm t |- _ => destruct (IH sm t H Re' (lm_iter_lambda _ _ _ _ Pl Is) ltac:(intros Q; apply NC; right; auto)) as (A & B & C) end.
  split; [intros [Q|Q]; auto|]. split; [destruct Ac as [Q|[Q _]]; lra|]. eapply Rle_trans; [exact C|].
  lra.
Qed.
Print Assumptions C83_passes.

(** *** Example: the map of C81; every landmark is observed with information of at
    least 1 in every direction *)
Lemma id3_quad x : quad 3 id3 x x = x 0%nat * x 0%nat + x 1%nat * x 1%nat + x 2%nat * x 2%nat.
Proof. unfold quad, id3. cbn. ring. Qed.
Lemma map_seen p q s : state_of (s_w s) 0 = P3 m4id -> state_of (s_w s) 2 = P3 quarter -> well_seen 1 (map_calls quarter p q) (state_of (s_w s)).
Proof.
  intros S0 S2. intros [|[|[|[|j]]]] m v H N; [injection H as <- <-; congruence| |injection H as <- <-; congruence| |exfalso; destruct j; discriminate H].
  - exists (mkV3 1 2 3), 0%nat, id3, true, m4id. split; [unfold map_calls; do 3 right; left; reflexivity|]. split; auto. split; [exact id_rigid|]. intros x. rewrite id3_quad. lra.
  - exists (mkV3 0 0 7), 2%nat, id3, false, quarter. split; [unfold map_calls; do 6 right; left; reflexivity|]. split; auto. split; [exact quarter_rigid|]. intros x. rewrite id3_quad. lra.
Qed.
Example C83_ex : forall p q, exists s, let cs := map_calls quarter p q in exact gauss /\ typed [] cs /\ mapping cs /\ Forall solid_call cs /\ Forall call_info cs /\ 0 < 1 /\
  pycalls gauss QUADRATIC (solver_new world_new) cs = Some s /\ well_seen 1 cs (state_of (s_w s)) /\
  (* three passes, tolerance 0: the excess is divided by 4 10^18 at least *)
  exists t best, solve gauss LM 3 1 0 s = Some t /\ solve gauss GN 1 0 0 s = Some best /\
  chi2_of (s_w t) - chi2_of (s_w best) <= (chi2_of (s_w s) - chi2_of (s_w best)) / 4000000000000000000.
Proof.
  intros p q. destruct (map_states quarter p q) as (s & E & S0 & S2). destruct (map_calls_ok quarter p q quarter_rigid) as (T & M & So & P & _). pose proof (map_seen p q s S0 S2) as Ws.
  exists s. intros cs. split; [exact gauss_exact|]. do 4 (split; [assumption|]). split; [lra|]. split; [assumption|]. split; [assumption|].
  destruct (C83_excess gauss cs 1 3 1 0 1 0 0 s gauss_exact T M So P ltac:(lra) E Ws) as (t & g & Et & Eg & _ & N & D). exists t, g. split; auto. split; auto. cbv zeta in D, N.
  assert (Es : 0 <= chi2_of (s_w s) - chi2_of (s_w g)). { pose proof (near_best gauss cs 1 gauss_exact T M So P ltac:(lra) 1 0 0 s g 0 (session_ready gauss cs 1 s T So E Ws) Eg ltac:(cbn; lia)) as Q. unfold sq_dist in Q. rewrite S0 in Q. lra. }
  destruct D as [D|D]; [|lra]. cbn [Nat.max shrink pow] in D. lra.
Qed.
