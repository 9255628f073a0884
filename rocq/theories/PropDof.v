(** C98: degrees of freedom. *)
Require Import Reals List Arith Lia Lra Bool.
From Verif Require Import Lin LinFacts SpecGeom SO3 SE3 SO3Misc SE3Alg Nodes NodesProofs Robust Graph GraphProofs Sums Solve SpecSolve SolveFrame SolveSums SolveBuild SolveProofs Session SessionProofs.
From Verif Require Import Factors SpecFactors FactorsSession FrameSolve SpecFrame SpecSolvable SolvableSession SpecMapping MappingSession Gauss PropFrame PropSolvable PropMapping SpecChain Chain Grow SpecDof Dof.
Import ListNotations.
Local Open Scope R_scope.

(** *** What a least squares fit explains of the residuals: a projection, whose trace is the
    number of unknowns *)
Theorem C98_fit : forall lin rob cs s b C, typed [] cs -> Forall call_info cs -> rob <> RANSAC -> pycalls lin rob (solver_new world_new) cs = Some s -> build_problem false s = Some b ->
  let M := g_obsDim (w_graph (s_w s)) in let n := g_stateDim (w_graph (s_w s)) in inverse_of n (s_L b) C ->
  let H := hat M n (Amat b) (Wmat b) C in
  trace M H = INR n /\ (forall p q, times M H H p q = H p q) /\ (forall p j, (j < n)%nat -> times M H (Amat b) p j = Amat b p j) /\
  (forall v, 0 <= quad M (times M (Wmat b) H) v v <= quad M (Wmat b) v v) /\
  (forall dx, (forall i, (i < n)%nat -> sumn n (fun j => s_L b i j * dx j) = s_b b i) -> forall p, sumn n (fun i => Amat b p i * dx i) = sumn M (fun q => H p q * s_r b q)).
Proof.
  intros lin rob cs s b C Ty P NR E Eb M n I H. destruct (session_fit lin rob cs s b Ty P NR E Eb) as [Wf F]. fold M n in F.
  assert (Sy : forall p q, (p < M)%nat -> (q < M)%nat -> Wmat b p q = Wmat b q p) by (intros; apply (ft_sym _ _ _ _ F)).
  assert (I' : inverse_of n (gram2 M (Amat b) (Wmat b)) C) by (rewrite <- (ft_L _ _ _ _ F); exact I).
  split; [apply hat_trace; auto|]. split; [intros; apply hat_twice; auto|]. split; [intros; apply hat_keeps; auto|]. split.
  - intros v. change (quad M (times M (Wmat b) H) v v) with (quad M (taken M n (Amat b) (Wmat b) C) v v). rewrite <- (taken_form M n (Amat b) (Wmat b) C Sy v). set (u := rhs2 M (Amat b) (Wmat b) v). set (y := fun i => sumn n (fun j => C i j * u j)).
    assert (Y : forall x, form n (s_L b) x y = dot n x u) by (intros x; apply inverse_form; auto). split.
    + rewrite quad_apply. fold y. replace (dot n u y) with (dot n y u) by (unfold dot; apply sumn_ext; intros; ring). rewrite <- Y. apply (ft_pos _ _ _ _ F).
    + pose proof (value_shift M n (Amat b) (Wmat b) C Sy I' v (fun i => - y i)) as Q. cbv beta zeta in Q. fold u in Q.
      replace (quad n C (rhs2 M (Amat b) (Wmat b) (fun p => v p + sumn n (fun j => Amat b p j * - y j))) (rhs2 M (Amat b) (Wmat b) (fun p => v p + sumn n (fun j => Amat b p j * - y j)))) with 0 in Q.
      * pose proof (ft_psd _ _ _ _ F (fun p => v p + sumn n (fun j => Amat b p j * - y j))). lra.
      * assert (Z : forall i, (i < n)%nat -> rhs2 M (Amat b) (Wmat b) (fun p => v p + sumn n (fun j => Amat b p j * - y j)) i = 0).
        { intros i Hi. rewrite rhs2_plus. fold u. replace (sumn n (fun j => gram2 M (Amat b) (Wmat b) i j * - y j)) with (- times n (gram2 M (Amat b) (Wmat b)) (times n C (fun j _ => u j)) i 0%nat).
          - rewrite <- times_assoc. unfold times at 1. replace (sumn n (fun k => times n (gram2 M (Amat b) (Wmat b)) C i k * u k)) with (u i); [ring|]. rewrite <- (dot_unit n u i Hi). apply sumn_ext; intros k Hk. unfold times. rewrite (I' i k Hi Hk), Nat.eqb_sym. reflexivity.
          - unfold times, y. rewrite <- sumn_opp. apply sumn_ext; intros; ring. }
        symmetry. unfold quad. apply sumn_zero; intros i Hi. apply sumn_zero; intros j Hj. rewrite (Z i Hi). ring.
  - intros dx D p. unfold H. rewrite <- fitted. apply sumn_ext; intros i Hi. f_equal. rewrite <- (ft_b _ _ _ _ F).
    transitivity (times n C (times n (gram2 M (Amat b) (Wmat b)) (fun j _ => dx j)) i 0%nat).
    + rewrite <- times_assoc. unfold times at 1. rewrite <- (dot_unit n dx i Hi) at 1. apply sumn_ext; intros k Hk. unfold times. rewrite (inverse_left M n (Amat b) (Wmat b) C Sy I' i k Hi Hk), Nat.eqb_sym. reflexivity.
    + unfold times at 1. apply sumn_ext; intros k Hk. f_equal. unfold times. rewrite <- (ft_L _ _ _ _ F). apply D; auto.
Qed.
Print Assumptions C98_fit.

(** *** Over noise of the stated covariance, the least value of the linearised cost is on
    average the number of residuals less the number of unknowns *)
Theorem C98_mean : forall M n A W S (runs : list (solver * solver)),
  (forall s b, In (s, b) runs -> exists lin rob cs, typed [] cs /\ Forall call_info cs /\ rob <> RANSAC /\ pycalls lin rob (solver_new world_new) cs = Some s) ->
  (forall s b, In (s, b) runs -> posed_with M n A W s b /\ nonsingular n (s_L b)) -> inverse_of M W S -> noisy M n A S runs (fun x => s_r (snd x)) ->
  (forall s b, In (s, b) runs -> exists c, least_cost (s_w s) c) /\
  forall c, (forall s b, In (s, b) runs -> least_cost (s_w s) (c (s, b))) -> lsum runs c = INR (length runs) * (INR M - INR n).
Proof.
  intros M n A W S runs Se Po V (e & d & Er & Mo).
  assert (Fi : forall s b, In (s, b) runs -> wf (s_w s) /\ fit s b M n).
  { intros s b Ix. destruct (Se s b Ix) as (lin & rob & cs & Ty & P & NR & E). destruct (Po s b Ix) as [(Eb & <- & <- & _) _]. apply (session_fit lin rob cs); auto. }
  split. { intros s b Ix. destruct (Fi s b Ix) as [Wf F]. destruct (Po s b Ix) as [_ NS]. destruct (inverse_exists n (s_L b) NS) as [C I]. apply (least_exists s b M n C); auto. }
  intros c Hc. destruct runs as [|[s0 b0] l]; [cbn [length INR]; rewrite lsum_nil; ring|]. set (runs := (s0, b0) :: l) in *. assert (I0 : In (s0, b0) runs) by (left; reflexivity).
  destruct (Fi s0 b0 I0) as [_ F0]. destruct (Po s0 b0 I0) as [(_ & _ & _ & A0 & W0) NS0]. destruct (inverse_exists n (s_L b0) NS0) as [C IC].
  assert (Sy : forall p q, (p < M)%nat -> (q < M)%nat -> W p q = W q p) by (intros p q Hp Hq; rewrite <- !W0 by auto; apply (ft_sym _ _ _ _ F0)).
  assert (G : forall s b, In (s, b) runs -> forall i j, (i < n)%nat -> (j < n)%nat -> s_L b i j = gram2 M A W i j).
  { intros s b Ix i j Hi Hj. destruct (Fi s b Ix) as [_ F]. destruct (Po s b Ix) as [(_ & _ & _ & A1 & W1) _]. rewrite (ft_L _ _ _ _ F). unfold gram2. apply sumn_ext; intros p Hp. apply sumn_ext; intros q Hq. rewrite !A1, W1 by auto. reflexivity. }
  assert (I' : inverse_of n (gram2 M A W) C). { intros i j Hi Hj. rewrite <- (IC i j Hi Hj). apply sumn_ext; intros k Hk. rewrite (G s0 b0 I0) by auto. reflexivity. }
  assert (Va : forall x, In x runs -> c x = quad M W (e x) (e x) - quad M (taken M n A W C) (e x) (e x)).
  { intros [s b] Ix. destruct (Fi s b Ix) as [Wf F]. destruct (Po s b Ix) as [(_ & _ & _ & A1 & W1) _].
    assert (J : inverse_of n (s_L b) C). { intros i j Hi Hj. rewrite <- (I' i j Hi Hj). apply sumn_ext; intros k Hk. rewrite (G s b Ix) by auto. reflexivity. }
    rewrite (least_value s b M n C (c (s, b)) Wf F J (Hc s b Ix)). rewrite <- (taken_form M n A W C Sy (e (s, b))), <- (value_shift M n A W C Sy I' (e (s, b)) (d (s, b))).
    set (r' := fun p => e (s, b) p + sumn n (fun j => A p j * d (s, b) j)). assert (R : forall p, (p < M)%nat -> s_r b p = r' p) by (intros p Hp; apply (Er (s, b) p Ix Hp)).
    f_equal.
    - unfold quad. apply sumn_ext; intros p Hp. apply sumn_ext; intros q Hq. rewrite W1, !R by auto. reflexivity.
    - apply quad_ext; intros i Hi; rewrite (ft_b _ _ _ _ F); unfold rhs2; apply sumn_ext; intros p Hp; apply sumn_ext; intros q Hq; rewrite A1, W1, R by auto; reflexivity. }
  rewrite (lsum_ext runs c (fun x => quad M W (e x) (e x) + -1 * quad M (taken M n A W C) (e x) (e x))) by (intros x Ix; rewrite (Va x Ix); ring).
  rewrite lsum_plus, lsum_scal, !(moment_quad M S runs e (INR (length runs))) by exact Mo. rewrite (weights_moment M W Sy S V), (taken_moment M n A W C Sy I' S V). ring.
Qed.
Print Assumptions C98_mean.

(** *** Mapping from known poses: chi2 after a single Gauss-Newton step is on average half
    the degrees of freedom, whatever the initial guesses were *)
Theorem C98_chi2 : forall lin M n A W S (runs : list (solver * solver)) (after : solver * solver -> solver), exact lin ->
  (forall s b, In (s, b) runs -> exists cs k lambda tol, typed [] cs /\ mapping cs /\ Forall solid_call cs /\ Forall call_info cs /\ (forall i, (i < length (nodes_of cs))%nat -> held cs i) /\
     pycalls lin QUADRATIC (solver_new world_new) cs = Some s /\ solve lin GN k lambda tol s = Some (after (s, b))) ->
  (forall s b, In (s, b) runs -> posed_with M n A W s b) -> inverse_of M W S -> noisy M n A S runs (fun x => s_r (snd x)) ->
  lsum runs (fun x => chi2_of (s_w (after x))) = INR (length runs) * ((INR M - INR n) / 2).
Proof.
  intros lin M n A W S runs after X Se Po V No.
  assert (Q : lsum runs (fun x => 2 * chi2_of (s_w (after x))) = INR (length runs) * (INR M - INR n)).
  { apply (C98_mean M n A W S runs).
    - intros s b Ix. destruct (Se s b Ix) as (cs & k & la & tol & Ty & _ & _ & P & _ & E & _). exists lin, QUADRATIC, cs. repeat (split; auto). discriminate.
    - intros s b Ix. split; auto. destruct (Se s b Ix) as (cs & k & la & tol & Ty & Mp & So & P & Hd & E & _). destruct (Po s b Ix) as (Eb & _ & <- & _). destruct (mapping_inv lin cs s Ty So E) as [Vi Fi].
      apply (held_regular QUADRATIC cs s b); auto. discriminate.
    - exact V.
    - exact No.
    - intros s b Ix. destruct (Se s b Ix) as (cs & k & la & tol & Ty & Mp & So & P & Hd & E & E'). set (s' := after (s, b)) in *. destruct (mapping_inv lin cs s Ty So E) as [Vi Fi]. pose proof (mapping_inv' lin cs k la tol s s' Ty So E E') as Vi'. pose proof (gd_wf _ (iv_good _ _ _ Vi)) as Wf.
      destruct (mapping_step lin cs k la tol s s' X Ty Mp So P Hd E E') as (dx & Hr & Sh & _). destruct (inv_infos QUADRATIC cs (s_w s) Vi P ltac:(discriminate)) as (Sy & Ps & We).
      pose proof (mapping_cost cs (s_w s) (fun i => - dx i) (state_of (s_w s')) Ty Vi Sh) as C2. rewrite <- (tracks_chi2 _ cs _ (iv_tracks _ _ _ Vi')) in C2. rewrite <- C2. split.
      + eexists. split; [|reflexivity]. intros l j Hl. unfold increments, is_anchor. rewrite Hl. reflexivity.
      + intros d Hd'. rewrite <- (lin_cost_pack (s_w s) d Wf Hd'). rewrite (gn_square s dx (pack (ndim (s_w s)) (g_active (w_graph (s_w s))) d) Wf Sy Hr).
        match goal with |- _ <= _ + ?g => assert (0 <= g); [|lra] end. unfold gn_form. apply lsum_nonneg. intros l Il. rewrite quad_sym by (apply Sy; auto). apply Rmult_le_pos; [left; apply We; auto|apply Ps; auto]. }
  rewrite lsum_scal in Q. lra.
Qed.
Print Assumptions C98_chi2.

(** a landmark that is seen twice: six residuals, three unknowns *)
Definition twice_calls (p o1 o2 : V3) : list pycall :=
  [CNode ANCHOR (P3 m4id); CNode STANDARD (L3 p); CLandmark3d o1 0 1 id3 false; CLandmark3d o2 0 1 id3 false].
Definition unit_mat (p q : nat) : R := if Nat.eqb p q then 1 else 0.
Definition stacked (p i : nat) : R := if Nat.eqb p i then 1 else if Nat.eqb p (3 + i) then 1 else 0.
Lemma six (P : nat -> Prop) : P 0%nat -> P 1%nat -> P 2%nat -> P 3%nat -> P 4%nat -> P 5%nat -> forall p, (p < 6)%nat -> P p.
Proof. intros P0 P1 P2 P3 P4 P5 [|[|[|[|[|[|p]]]]]] L; auto; lia. Qed.
Lemma twice_problem p o1 o2 : exists s b, pycalls gauss QUADRATIC (solver_new world_new) (twice_calls p o1 o2) = Some s /\ posed_with 6 3 stacked unit_mat s b /\
  forall j, (j < 6)%nat -> s_r b j = nth j [vx p - vx o1; vy p - vy o1; vz p - vz o1; vx p - vx o2; vy p - vy o2; vz p - vz o2] 0.
Proof.
  eexists. eexists. split; [cbv -[m4id id3 IZR gauss res_landmark3d jac_landmark3d lvec lmat beside l3 R0 R1 Rmult Rplus Ropp Rinv Rdiv sqrt]; reflexivity|].
  split.
  - unfold posed_with. split; [cbv -[m4id id3 IZR gauss res_landmark3d jac_landmark3d lvec lmat beside l3 R0 R1 Rmult Rplus Ropp Rinv Rdiv sqrt]; reflexivity|].
    split; [reflexivity|]. split; [reflexivity|]. split.
    + intros q i Hq Hi. revert q Hq. destruct i as [|[|[|i]]]; [| | |lia]; apply six; lazy -[IZR Rmult Rplus Ropp Rinv Rdiv sqrt]; ring.
    + intros q i Hq Hi. revert i Hi. revert q Hq. apply (six (fun q => forall i, (i < 6)%nat -> Wmat _ q i = unit_mat q i)); apply six; lazy -[IZR Rmult Rplus Ropp Rinv Rdiv sqrt]; ring.
  - destruct p, o1, o2. apply six; lazy -[IZR Rmult Rplus Ropp Rinv Rdiv sqrt]; ring.
Qed.
Lemma twice_ok p o1 o2 : let cs := twice_calls p o1 o2 in typed [] cs /\ mapping cs /\ Forall solid_call cs /\ Forall call_info cs /\ forall i, (i < length (nodes_of cs))%nat -> held cs i.
Proof.
  intros cs. split. { cbn. repeat split; auto; discriminate. }
  split. { intros [|[|i]] m v H N; cbn in H; try discriminate; [injection H as <- <-; congruence|injection H as <- <-; reflexivity|destruct i; discriminate]. }
  split. { unfold cs, twice_calls. repeat (apply Forall_cons; [cbn; first [exact I|exact solid_id]|]). constructor. }
  split. { unfold cs, twice_calls. repeat (apply Forall_cons; [cbn; first [exact I|exact (id3_proper 3)]|]). constructor. }
  assert (H0 : held cs 0) by (eapply held_anchor; reflexivity).
  intros i Hi. cbn in Hi. destruct i as [|[|i]]; auto; try lia. eapply held_landmark3d; [|apply (id_positive 3)|exact H0]. unfold cs, twice_calls; cbn; auto 20.
Qed.
(** six runs, in each of which one of the six observed numbers is off by sqrt 6; the
    landmark is at (1, 2, 3), the initial guess is (7, 8, 9) *)
Definition off (k j : nat) : R := if Nat.eqb k j then sqrt 6 else 0.
Definition seen (k a : nat) : V3 := mkV3 (1 - off k a) (2 - off k (a + 1)) (3 - off k (a + 2)).
Definition guess : V3 := mkV3 7 8 9.
Example C98_ex : exists runs after, exact gauss /\ length runs = 6%nat /\
  (forall s b, In (s, b) runs -> exists cs k lambda tol, typed [] cs /\ mapping cs /\ Forall solid_call cs /\ Forall call_info cs /\ (forall i, (i < length (nodes_of cs))%nat -> held cs i) /\
     pycalls gauss QUADRATIC (solver_new world_new) cs = Some s /\ solve gauss GN k lambda tol s = Some (after (s, b))) /\
  (forall s b, In (s, b) runs -> posed_with 6 3 stacked unit_mat s b) /\ inverse_of 6 unit_mat unit_mat /\ noisy 6 3 stacked unit_mat runs (fun x => s_r (snd x)) /\
  lsum runs (fun x => chi2_of (s_w (after x))) = 9.
Proof.
  set (s_of := fun k => match pycalls gauss QUADRATIC (solver_new world_new) (twice_calls guess (seen k 0) (seen k 3)) with Some s => s | None => solver_new world_new end).
  set (b_of := fun s => match build_problem false s with Some b => b | None => s end).
  set (after := fun x : solver * solver => match solve gauss GN 1 0 0 (fst x) with Some s' => s' | None => fst x end).
  set (runs := map (fun k => (s_of k, b_of (s_of k))) (seq 0 6)). exists runs, after.
  assert (K : forall k, pycalls gauss QUADRATIC (solver_new world_new) (twice_calls guess (seen k 0) (seen k 3)) = Some (s_of k) /\ posed_with 6 3 stacked unit_mat (s_of k) (b_of (s_of k)) /\
    forall j, (j < 6)%nat -> s_r (b_of (s_of k)) j = nth j [6; 6; 6; 6; 6; 6] 0 + off k j).
  { intros k. destruct (twice_problem guess (seen k 0) (seen k 3)) as (s & b & E & Po & R). assert (Es : s_of k = s) by (unfold s_of; rewrite E; reflexivity). assert (Eb : b_of s = b) by (unfold b_of; rewrite (proj1 Po); reflexivity).
    rewrite Es, Eb. split; [exact E|]. split; [exact Po|]. intros j Hj. rewrite (R j Hj). revert j Hj. apply six; cbn [nth guess seen vx vy vz Nat.add]; ring. }
  clearbody s_of b_of.
  assert (Pr : forall s b, In (s, b) runs -> exists k, (k < 6)%nat /\ s = s_of k /\ b = b_of (s_of k)).
  { intros s b Ix. apply in_map_iff in Ix. destruct Ix as (k & Ek & Ik). injection Ek as <- <-. apply in_seq in Ik. exists k. split; [lia|auto]. }
  assert (Se : forall s b, In (s, b) runs -> exists cs k lambda tol, typed [] cs /\ mapping cs /\ Forall solid_call cs /\ Forall call_info cs /\ (forall i, (i < length (nodes_of cs))%nat -> held cs i) /\
     pycalls gauss QUADRATIC (solver_new world_new) cs = Some s /\ solve gauss GN k lambda tol s = Some (after (s, b))).
  { intros s b Ix. destruct (Pr s b Ix) as (k & _ & -> & ->). destruct (K k) as (E & _). exists (twice_calls guess (seen k 0) (seen k 3)), 1%nat, 0, 0. destruct (twice_ok guess (seen k 0) (seen k 3)) as (T & Mp & So & P & Hd). split; [exact T|]. split; [exact Mp|]. split; [exact So|]. split; [exact P|]. split; [exact Hd|]. split; [exact E|].
    destruct (session_inv gauss QUADRATIC _ T) as (s0 & E0 & V & _). rewrite E in E0. injection E0 as E0. destruct (solve_total gauss GN 1 0 0 (s_of k)) as (s' & E'). { rewrite E0. exact (gd_wf _ (iv_good _ _ _ V)). }
    unfold after. cbn [fst]. rewrite E'. reflexivity. }
  assert (Po : forall s b, In (s, b) runs -> posed_with 6 3 stacked unit_mat s b) by (intros s b Ix; destruct (Pr s b Ix) as (k & _ & -> & ->); apply K).
  assert (In6 : inverse_of 6 unit_mat unit_mat).
  { intros i j Hi Hj. rewrite (sumn_single 6 i); auto; unfold unit_mat. { rewrite Nat.eqb_refl. destruct (Nat.eqb i j); ring. } intros k _ Nk. destruct (Nat.eqb_spec i k); [congruence|ring]. }
  assert (No : noisy 6 3 stacked unit_mat runs (fun x => s_r (snd x))).
  { exists (fun x p => s_r (snd x) p - 6), (fun _ _ => 6). split.
    - intros x p Ix Hp. cut (sumn 3 (fun i => stacked p i * 6) = 6); [intros ->; ring|]. revert p Hp. apply six; cbn; ring.
    - intros p q Hp Hq. unfold runs. rewrite map_length, seq_length, lsum_map, lsum_seq.
      rewrite (sumn_ext 6 _ (fun k => off k p * off k q)).
      + assert (Sq : sqrt 6 * sqrt 6 = 6) by (apply sqrt_sqrt; lra). rewrite (sumn_single 6 p); auto.
        * unfold off, unit_mat. rewrite Nat.eqb_refl. destruct (Nat.eqb p q); cbn [INR]; [rewrite Sq|]; ring.
        * intros k _ Nk. unfold off. apply Nat.eqb_neq in Nk. rewrite Nk. ring.
      + intros k _. cbn [snd]. destruct (K k) as (_ & _ & R). rewrite !R by auto. assert (N6 : forall j, (j < 6)%nat -> nth j [6; 6; 6; 6; 6; 6] 0 = 6) by (apply six; reflexivity). rewrite !N6 by auto. ring. }
  split; [exact gauss_exact|]. split; [unfold runs; rewrite map_length, seq_length; reflexivity|]. split; [exact Se|]. split; [exact Po|]. split; [exact In6|]. split; [exact No|].
  rewrite (C98_chi2 gauss 6 3 stacked unit_mat unit_mat runs after gauss_exact Se Po In6 No). unfold runs. rewrite map_length, seq_length. cbn [INR]. lra.
Qed.
