(** C102: the uncertainty of a planar session in two coordinate frames. *)
Require Import Reals List Arith Lia Lra Bool.
From Verif Require Import Lin LinFacts SpecGeom Nodes NodesProofs Robust Graph GraphProofs Sums Solve SpecSolve SolveFrame SolveSums SolveBuild SolveProofs Session SessionProofs.
From Verif Require Import Factors SpecFactors FactorsSession SpecFrame FrameSolve FrameSession PropFrame SpecSolvable PropSolvable SpecChain Chain Grow Gauss SpecPin PropPin Turned.
Import ListNotations.
Local Open Scope R_scope.

(** *** The covariance turns with the coordinates
    A planar session and the same session in moved coordinates (C79). Both determine
    their solution or neither does, and the covariance of two combinations of the states is
    that of the turned combinations in the second frame. *)
Theorem C102_turned : forall lin rob g cs cs', exact lin -> rob <> RANSAC -> typed [] cs -> Forall2 (framed true g) cs cs' -> posed lin rob (solver_new world_new) cs ->
  exists s s' b b', pycalls lin rob (solver_new world_new) cs = Some s /\ pycalls lin rob (solver_new world_new) cs' = Some s' /\ build_problem false s = Some b /\ build_problem false s' = Some b' /\
  let n := g_stateDim (w_graph (s_w s)) in let n' := g_stateDim (w_graph (s_w s')) in
  (nonsingular n (s_L b) <-> nonsingular n' (s_L b')) /\
  forall C C', inverse_of n (s_L b) C -> inverse_of n' (s_L b') C' -> forall a a' c c' v v' u u', combination (s_w s) a v -> combination (s_w s') a' v' -> combination (s_w s) c u -> combination (s_w s') c' u' ->
  (forall i k, a' i k = turn g (a i) k) -> (forall i k, c' i k = turn g (c i) k) -> quad n' C' v' u' = quad n C v u.
Proof.
  intros lin rob g cs cs' X R T F P.
  destruct (run_sim true lin rob g (fun _ => conj X R) cs cs' [] [] (solver_new world_new) (solver_new world_new) F T tracks_new (ex_intro _ [] tracks_new) good_new good_new (sim_new true g) (fun _ => P)) as (s & s' & E & E' & G & G' & S).
  destruct (build_wf s (gd_wf _ G)) as (b & Eb & B). destruct (build_wf s' (gd_wf _ G')) as (b' & Eb' & B').
  exists s, s', (build_info_adjacency b), (build_info_adjacency b'). split; [exact E|]. split; [exact E'|]. unfold build_problem. rewrite Eb, Eb'. split; [reflexivity|]. split; [reflexivity|]. cbv zeta. rewrite (same_dim g s s' S). split.
  - apply (turned_determined g s s' b b' G G' S B B').
  - intros C C' I I' a a' c c' v v' u u' K K' Kc Kc' Ea Ec. apply (turned_covariance g s s' b b' G G' S B B' C C' v v' u u' I I'); eapply (turned_combination g s s' G G' S); eassumption.
Qed.
Print Assumptions C102_turned.
(** *** In particular the covariance of the position of a node turns, and its two axes together
    are as uncertain as before; the uncertainty of a heading is the same number *)
Definition coordinate (i k : nat) : nat -> nat -> R := fun j q => if Nat.eqb j i then if Nat.eqb q k then 1 else 0 else 0.
Theorem C102_position : forall lin rob g cs cs', exact lin -> rob <> RANSAC -> typed [] cs -> Forall2 (framed true g) cs cs' -> posed lin rob (solver_new world_new) cs ->
  exists s s' b b', pycalls lin rob (solver_new world_new) cs = Some s /\ pycalls lin rob (solver_new world_new) cs' = Some s' /\ build_problem false s = Some b /\ build_problem false s' = Some b' /\
  let n := g_stateDim (w_graph (s_w s)) in let n' := g_stateDim (w_graph (s_w s')) in
  forall C C', inverse_of n (s_L b) C -> inverse_of n' (s_L b') C' -> forall i x y h x' y' h',
  combination (s_w s) (coordinate i 0) x -> combination (s_w s) (coordinate i 1) y -> combination (s_w s) (coordinate i 2) h ->
  combination (s_w s') (coordinate i 0) x' -> combination (s_w s') (coordinate i 1) y' -> combination (s_w s') (coordinate i 2) h' ->
  let co := cos (fr_angle g) in let si := sin (fr_angle g) in
  quad n' C' x' x' = co * co * quad n C x x - co * si * (quad n C x y + quad n C y x) + si * si * quad n C y y /\
  quad n' C' x' y' = co * si * (quad n C x x - quad n C y y) + co * co * quad n C x y - si * si * quad n C y x /\
  quad n' C' x' x' + quad n' C' y' y' = quad n C x x + quad n C y y /\
  quad n' C' h' h' = quad n C h h.
Proof.
  intros lin rob g cs cs' X R T F P. destruct (C102_turned lin rob g cs cs' X R T F P) as (s & s' & b & b' & E & E' & Eb & Eb' & _ & Q). exists s, s', b, b'. split; [exact E|]. split; [exact E'|]. split; [exact Eb|]. split; [exact Eb'|].
  cbv zeta in *. set (n := g_stateDim (w_graph (s_w s))) in *. set (n' := g_stateDim (w_graph (s_w s'))) in *. clearbody n n'. intros C C' I I' i x y h x' y' h' Kx Ky Kh Kx' Ky' Kh'. assert (CS : cos (fr_angle g) * cos (fr_angle g) + sin (fr_angle g) * sin (fr_angle g) = 1) by (pose proof (sin2_cos2 (fr_angle g)) as CS; unfold Rsqr in CS; lra). set (co := cos (fr_angle g)) in *. set (si := sin (fr_angle g)) in *.
  assert (Cm : forall p q, combination (s_w s) (fun j k => p * coordinate i 0 j k + q * coordinate i 1 j k) (fun k => p * x k + q * y k)). { intros p q m l k M Hk. cbv beta. rewrite (Kx m l k M Hk), (Ky m l k M Hk). reflexivity. }
  assert (Tx : forall j k, coordinate i 0 j k = turn g ((fun j k => co * coordinate i 0 j k + (- si) * coordinate i 1 j k) j) k).
  { intros j k. unfold turn. fold co si. unfold coordinate. destruct (Nat.eqb j i); destruct k as [|[|k]]; cbn [Nat.eqb]; lra. }
  assert (Ty : forall j k, coordinate i 1 j k = turn g ((fun j k => si * coordinate i 0 j k + co * coordinate i 1 j k) j) k).
  { intros j k. unfold turn. fold co si. unfold coordinate. destruct (Nat.eqb j i); destruct k as [|[|k]]; cbn [Nat.eqb]; lra. }
  assert (Th : forall j k, coordinate i 2 j k = turn g (coordinate i 2 j) k).
  { intros j k. unfold turn, coordinate. destruct (Nat.eqb j i); destruct k as [|[|k]]; cbn [Nat.eqb]; lra. }
  assert (Bi : forall p q p' q', quad n C (fun k => p * x k + q * y k) (fun k => p' * x k + q' * y k) = p * p' * quad n C x x + p * q' * quad n C x y + q * p' * quad n C y x + q * q' * quad n C y y).
  { intros. unfold quad. rewrite !sumn_mult_l, <- !sumn_plus. apply sumn_ext. intros r _. rewrite !sumn_mult_l, <- !sumn_plus. apply sumn_ext. intros; ring. }
  assert (Vx := Q C C' I I' _ _ _ _ _ _ _ _ (Cm co (- si)) Kx' (Cm co (- si)) Kx' Tx Tx). assert (Vy := Q C C' I I' _ _ _ _ _ _ _ _ (Cm si co) Ky' (Cm si co) Ky' Ty Ty). assert (Vxy := Q C C' I I' _ _ _ _ _ _ _ _ (Cm co (- si)) Kx' (Cm si co) Ky' Tx Ty).
  rewrite Bi in Vx, Vy, Vxy. split; [rewrite Vx; ring|]. split; [rewrite Vxy; ring|]. split.
  - rewrite Vx, Vy. transitivity ((co * co + si * si) * (quad n C x x + quad n C y y)); [ring|]. rewrite CS. ring.
  - apply (Q C C' I I' _ _ _ _ _ _ _ _ Kh Kh' Kh Kh' Th Th).
Qed.
Print Assumptions C102_position.

(** the session of C79_ex without its solves: in any second frame, the covariances exist *)
Definition seen_calls (f : V3 -> V3) (l : nval) : list pycall :=
  [CNode STANDARD (P2 (f (mkV3 1 2 0))); CPose2d (f (mkV3 1 1 0)) 0 id3; CNode STANDARD (P2 (f (mkV3 3 2 1))); C2Poses2d (mkV3 2 0 1) 0 1 id3 false; CNode STANDARD l; CLandmark2d 2 0 1 2 id3 false; CSolve LM 5 0 0].
Example C102_ex : forall g rob, rob <> RANSAC -> let cs := seen_calls (fun p => p) (L2 5 2) in let cs' := seen_calls (frame_pose g) (L2 (seen_x g 5 2) (seen_y g 5 2)) in
  exact gauss /\ typed [] cs /\ Forall2 (framed true g) cs cs' /\ posed gauss rob (solver_new world_new) cs /\
  exists s s' b b' C C', pycalls gauss rob (solver_new world_new) cs = Some s /\ pycalls gauss rob (solver_new world_new) cs' = Some s' /\ build_problem false s = Some b /\ build_problem false s' = Some b' /\
    inverse_of (g_stateDim (w_graph (s_w s))) (s_L b) C /\ inverse_of (g_stateDim (w_graph (s_w s'))) (s_L b') C' /\ forall a, exists v v', combination (s_w s) a v /\ combination (s_w s') (fun i => turn g (a i)) v' /\
    quad (g_stateDim (w_graph (s_w s'))) C' v' v' = quad (g_stateDim (w_graph (s_w s))) C v v.
Proof.
  intros g rob R cs cs'. assert (T : typed [] cs) by (cbn; repeat split; auto; discriminate).
  assert (F : Forall2 (framed true g) cs cs').
  { pose proof (id3_proper 3) as P3. pose proof (id3_proper 2) as P2'. assert (T3 : turned 3 g id3 id3) by (apply id3_turned; lia). assert (T2 : turned 2 g id3 id3) by (apply id3_turned; lia).
    unfold cs, cs', seen_calls. repeat (apply Forall2_cons; [unfold framed; repeat match goal with |- _ /\ _ => split end; auto; try discriminate; try apply frame_pose_moved; split; reflexivity|]). constructor. }
  assert (P : posed gauss rob (solver_new world_new) cs) by (apply posed_lm; intros c H; cbn in H; repeat (destruct H as [<-|H]; [exact I|]); destruct H).
  split; [exact gauss_exact|]. split; [exact T|]. split; [exact F|]. split; [exact P|].
  destruct (C102_turned gauss rob g cs cs' gauss_exact R T F P) as (s & s' & b & b' & E & E' & Eb & Eb' & D & Q).
  destruct (C80_held gauss rob cs R T) as (s0 & b0 & E0 & Eb0 & NS).
  { unfold cs, seen_calls. repeat (apply Forall_cons; [cbn; exact I|]). constructor. }
  { unfold cs, seen_calls. repeat (apply Forall_cons; [cbn; first [exact I | exact (id3_proper 3) | exact (id3_proper 2)]|]). constructor. }
  { assert (Po : forall m, positive m id3) by exact id_positive. assert (H0 : held cs 0) by (eapply held_pose2d; [|apply Po]; unfold cs, seen_calls; cbn; auto 20).
    assert (H1 : held cs 1) by (eapply held_2poses2d; [|apply Po|exact H0]; unfold cs, seen_calls; cbn; auto 20).
    intros i Hi. cbn in Hi. destruct i as [|[|[|i]]]; [exact H0|exact H1| |lia]. eapply held_landmark2d; [|apply Po|exact H1]; unfold cs, seen_calls; cbn; auto 20. }
  rewrite E in E0. injection E0 as <-. rewrite Eb in Eb0. injection Eb0 as <-. destruct (inverse_exists _ _ NS) as [C IC]. destruct (inverse_exists _ _ (proj1 D NS)) as [C' IC']. exists s, s', b, b', C, C'. repeat (split; [assumption|]).
  intros a. pose proof (combination_exists (s_w s) a) as K. pose proof (combination_exists (s_w s') (fun i => turn g (a i))) as K'. do 2 eexists. split; [exact K|]. split; [exact K'|].
  apply (Q C C' IC IC' a (fun i => turn g (a i)) a (fun i => turn g (a i)) _ _ _ _ K K' K K'); reflexivity.
Qed.
