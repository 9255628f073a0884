(** C80: which graphs determine their solution. *)
Require Import Reals List Arith Lia Lra Bool.
From Verif Require Import Lin SO3 AngleProofs Nodes Robust Graph Sums Solve SpecSolve SolveFrame SolveSums SolveBuild SolveProofs Session SessionProofs.
From Verif Require Import Factors SpecFactors FactorsSession SpecFrame Gauss FrameSolve SpecSolvable SolvableFactors SolvableSession FloatSession PropFrame.
Import ListNotations.
Local Open Scope R_scope.

(** *** Every node held: the Gauss-Newton system has exactly one solution *)
Theorem C80_held : forall lin rob cs, rob <> RANSAC -> typed [] cs -> Forall solid_call cs -> Forall call_info cs ->
  (forall i, (i < length (nodes_of cs))%nat -> held cs i) ->
  exists s b, pycalls lin rob (solver_new world_new) cs = Some s /\ build_problem false s = Some b /\ nonsingular (g_stateDim (w_graph (s_w s))) (s_L b).
Proof.
  intros lin rob cs R T So P H. destruct (session_inv lin rob cs T) as (s & E & V & Fi). destruct (build_wf s (gd_wf _ (iv_good _ _ _ V))) as (b & Eb & _).
  assert (Q : build_problem false s = Some (build_info_adjacency b)) by (unfold build_problem; rewrite Eb; reflexivity).
  exists s, (build_info_adjacency b). split; auto. split; auto. apply (held_regular rob cs s); auto.
Qed.
Print Assumptions C80_held.

(** *** So the Gauss-Newton solves of a session whose nodes are held are well posed,
    as C79 requires *)
Lemma typed_app cs1 : forall ks cs2, typed ks (cs1 ++ cs2) <-> typed ks cs1 /\ typed (fold_left kinds_after cs1 ks) cs2.
Proof. induction cs1 as [|c r IH]; intros ks cs2; cbn; [tauto|]. rewrite IH. tauto. Qed.
Theorem C80_posed : forall lin rob cs, rob <> RANSAC -> typed [] cs -> Forall solid_call cs -> Forall call_info cs ->
  (forall before after k lambda tol, cs = before ++ CSolve GN k lambda tol :: after -> forall i, (i < length (nodes_of before))%nat -> held before i) ->
  posed lin rob (solver_new world_new) cs.
Proof.
  intros lin rob cs R T So P H.
  assert (X : forall q p s, cs = p ++ q -> pycalls lin rob (solver_new world_new) p = Some s -> posed lin rob s q).
  { induction q as [|c q IH]; intros p s Ec E; [exact I|]. cbn [posed]. subst cs. apply typed_app in T as Tp. destruct Tp as [Tp _]. split.
    - destruct c; auto. destruct m; auto. intros b Q. apply Forall_app in So. apply Forall_app in P. destruct (session_inv lin rob p Tp) as (s0 & E0 & V & Fi). rewrite E in E0. injection E0 as <-.
      apply (held_regular rob p s); auto; [apply Fi|..]; try tauto. eapply H. reflexivity.
    - destruct (pystep lin rob s (pycall_op c)) as [s1|] eqn:E1; auto. apply (IH (p ++ [c]) s1). { rewrite <- app_assoc. reflexivity. } rewrite calls_app, E. unfold pycalls. cbn [map pyrun]. rewrite E1. reflexivity. }
  apply (X cs [] (solver_new world_new)); reflexivity.
Qed.
Print Assumptions C80_posed.

(** *** A floating set of planar nodes: moving it as a whole is invisible *)
Theorem C80_floating : forall lin rob cs S s, typed [] cs -> floating S cs -> pycalls lin rob (solver_new world_new) cs = Some s -> apart S cs (state_of (s_w s)) ->
  exists b, build_problem false s = Some b /\ let n := g_stateDim (w_graph (s_w s)) in
  (forall dx dy om, turns_no_odom S cs om -> exists x, (forall i, (i < n)%nat -> sumn n (fun j => s_L b i j * x j) = 0) /\ sumn n (fun i => s_b b i * x i) = 0 /\
     forall i l k, get_node (s_w s) i = Some l -> (k < nval_dim (state_of (s_w s) i))%nat -> increments (s_w s) x l k = if S i then swing dx dy om (state_of (s_w s) i) k else 0) /\
  ((exists i, S i = true) -> ~ nonsingular n (s_L b)).
Proof.
  intros lin rob cs S s T Fl E Ap. destruct (session_inv lin rob cs T) as (s0 & E0 & V & _). rewrite E in E0. injection E0 as <-. destruct (build_wf s (gd_wf _ (iv_good _ _ _ V))) as (b & Eb & _).
  assert (Q : build_problem false s = Some (build_info_adjacency b)) by (unfold build_problem; rewrite Eb; reflexivity).
  exists (build_info_adjacency b). split; auto. split.
  - intros dx dy om Od. exact (float_null rob cs S T Fl s _ false dx dy om V Ap Od Q).
  - intros Ne. exact (float_singular rob cs S T Fl s _ false Ne V Ap Q).
Qed.
Print Assumptions C80_floating.

(** *** A node without factors, and a pose that sees one landmark only *)
Theorem C80_isolated : forall lin rob cs i v, typed [] cs -> nth_error (nodes_of cs) i = Some (STANDARD, v) ->
  (forall c cl ids W, In c cs -> call_factor c = Some (cl, ids, W) -> ~ In i ids) ->
  exists s b, pycalls lin rob (solver_new world_new) cs = Some s /\ build_problem false s = Some b /\ ~ nonsingular (g_stateDim (w_graph (s_w s))) (s_L b).
Proof.
  intros lin rob cs i v T Hn Is. destruct (session_inv lin rob cs T) as (s & E & V & _). destruct (build_wf s (gd_wf _ (iv_good _ _ _ V))) as (b & Eb & _).
  assert (Q : build_problem false s = Some (build_info_adjacency b)) by (unfold build_problem; rewrite Eb; reflexivity).
  exists s, (build_info_adjacency b). split; auto. split; auto. exact (isolated_singular rob cs s _ false i v V Hn Is Q).
Qed.
Print Assumptions C80_isolated.
Theorem C80_one_landmark : forall lin rob cs i j v, typed [] cs -> nth_error (nodes_of cs) i = Some (STANDARD, v) -> kind_of v = KP2 ->
  (forall c cl ids W, In c cs -> call_factor c = Some (cl, ids, W) -> In i ids -> exists range bearing W' u, c = CLandmark2d range bearing i j W' u) ->
  exists s b, pycalls lin rob (solver_new world_new) cs = Some s /\ build_problem false s = Some b /\ ~ nonsingular (g_stateDim (w_graph (s_w s))) (s_L b).
Proof.
  intros lin rob cs i j v T Hn Kv Un. destruct (session_inv lin rob cs T) as (s & E & V & _). destruct (build_wf s (gd_wf _ (iv_good _ _ _ V))) as (b & Eb & _).
  assert (Q : build_problem false s = Some (build_info_adjacency b)) by (unfold build_problem; rewrite Eb; reflexivity).
  exists s, (build_info_adjacency b). split; auto. split; auto. exact (one_landmark_singular rob cs s _ false i j v T V Hn Kv Un Q).
Qed.
Print Assumptions C80_one_landmark.

(** *** Levenberg-Marquardt does not move the centre of a floating set of poses *)
Theorem C80_centre : forall lin rob cs S k lambda tol s, exact lin -> rob <> RANSAC -> typed [] cs -> Forall call_info cs -> floating S cs ->
  (forall range bearing i j W u, In (CLandmark2d range bearing i j W u) cs -> S i = false) -> pycalls lin rob (solver_new world_new) cs = Some s ->
  exists s', solve lin LM k lambda tol s = Some s' /\ number_nodes (s_w s') = number_nodes (s_w s) /\
    total S (number_nodes (s_w s)) pos_x (state_of (s_w s')) = total S (number_nodes (s_w s)) pos_x (state_of (s_w s)) /\
    total S (number_nodes (s_w s)) pos_y (state_of (s_w s')) = total S (number_nodes (s_w s)) pos_y (state_of (s_w s)).
Proof.
  intros lin rob cs S k la tol s X R T P Fl NL E. destruct (session_inv lin rob cs T) as (s0 & E0 & V & _). rewrite E in E0. injection E0 as <-.
  destruct (solve_total lin LM k la tol s (gd_wf _ (iv_good _ _ _ V))) as (s' & E'). exists s'. split; auto.
  destruct (solve_frame _ _ _ _ _ _ _ E') as (SK & _). assert (N : number_nodes (s_w s') = number_nodes (s_w s)) by (unfold number_nodes; rewrite (sk_graph _ _ SK); reflexivity). split; auto.
  rewrite <- N at 1 3. exact (centroid_kept rob cs S T Fl NL P R lin k la tol s s' X V E').
Qed.
Print Assumptions C80_centre.

(** *** Examples *)
Lemma id_positive n : positive n id3.
Proof.
  intros x Z i Hi. rewrite id3_quad in Z. assert (x i * x i = 0); [|nra]. revert i Hi. induction n as [|n IH]; intros i Hi; [lia|]. cbn in Z.
  assert (A : 0 <= sumn n (fun i => x i * x i)) by (apply sumn_nonneg; intros; nra). destruct (Nat.eq_dec i n) as [->|]; [nra|apply IH; [nra|lia]].
Qed.
Definition held_calls : list pycall :=
  [CNode ANCHOR (P2 (mkV3 1 2 0)); CNode STANDARD (P2 (mkV3 3 2 1)); C2Poses2d (mkV3 2 0 1) 1 0 id3 false; CNode STANDARD (L2 5 2); CLandmark2d 2 0 1 2 id3 true;
   CNode STANDARD (P3 m4id); CPose3d m4id 3 id3; CNode STANDARD (P3 m4id); C2Poses3d m4id 3 4 id3 true; CNode STANDARD (L3 (mkV3 1 2 3)); CLandmark3d (mkV3 1 0 0) 4 5 id3 false;
   CNode STANDARD (PL (mkV4 (mkV3 1 0 0) 2)); CPlane4d (mkV4 (mkV3 0 1 0) 1) 4 6 id3; CSolve LM 3 0 0; CNode STANDARD (P2 (mkV3 0 0 0)); COdom2d (mkV3 1 0 0) 7 1 id3].
Example C80_ex_held : typed [] held_calls /\ Forall solid_call held_calls /\ Forall call_info held_calls /\ forall i, (i < length (nodes_of held_calls))%nat -> held held_calls i.
Proof.
  pose proof id_positive as Po. split; [|split; [|split]].
  - cbn. repeat split; auto; discriminate.
  - unfold held_calls. repeat (apply Forall_cons; [cbn; first [exact I | exact solid_id]|]). constructor.
  - unfold held_calls. repeat (apply Forall_cons; [cbn; first [exact I | exact (id3_proper 3) | exact (id3_proper 2) | exact (id3_proper 6) | exact (id3_proper 4)]|]). constructor.
  - assert (H0 : held held_calls 0) by (eapply held_anchor; reflexivity).
    assert (H1 : held held_calls 1) by (eapply held_2poses2d'; [|apply Po|exact H0]; unfold held_calls; cbn; auto 20).
    assert (H3 : held held_calls 3) by (eapply held_pose3d; [|apply Po]; unfold held_calls; cbn; auto 20).
    assert (H4 : held held_calls 4) by (eapply held_2poses3d; [|apply Po|exact H3]; unfold held_calls; cbn; auto 20).
    intros i Hi. cbn in Hi. destruct i as [|[|[|[|[|[|[|[|i]]]]]]]]; auto; try lia.
    + eapply held_landmark2d; [|apply Po|exact H1]; unfold held_calls; cbn; auto 20.
    + eapply held_landmark3d; [|apply Po|exact H4]; unfold held_calls; cbn; auto 20.
    + eapply held_plane; [|apply Po|exact H4]; unfold held_calls; cbn; auto 20.
    + eapply held_odom'; [|apply Po|exact H1]; unfold held_calls; cbn; auto 20.
Qed.
Example C80_ex_posed : forall g o before after k lambda tol, let cs := [CNode ANCHOR (P2 g); CNode STANDARD (P2 o); C2Poses2d o 0 1 id3 true; CSolve GN 1 0 0; CNode STANDARD (P2 g)] in
  cs = before ++ CSolve GN k lambda tol :: after -> forall i, (i < length (nodes_of before))%nat -> held before i.
Proof.
  intros g o before after k la tol cs E i Hi. assert (Eb : before = firstn 3 cs).
  { unfold cs in E |- *. destruct before as [|c1 [|c2 [|c3 [|c4 r]]]]; cbn [app] in E; injection E; intros; subst; try discriminate; try reflexivity. destruct r as [|c5 r]; cbn in *; [discriminate|]. match goal with H : _ = _ :: _ |- _ => injection H as _ H; destruct r; discriminate end. }
  subst before. cbn in Hi. assert (H0 : held (firstn 3 cs) 0) by (eapply held_anchor; reflexivity). destruct i as [|[|i]]; auto; [|lia].
  eapply held_2poses2d; [|apply (id_positive 3)|exact H0]. cbn. auto.
Qed.
(** an anchored pose, and two poses joined by a relative pose, of which one sees a landmark *)
Definition float_calls (p q : V3) (lx ly : R) : list pycall :=
  [CNode ANCHOR (P2 v3zero); CNode STANDARD (P2 p); CNode STANDARD (P2 q); C2Poses2d (mkV3 1 0 0) 1 2 id3 false; CNode STANDARD (L2 lx ly); CLandmark2d 2 0 2 3 id3 false].
Definition loose (i : nat) : bool := match i with 1 | 2 | 3 => true | _ => false end%nat.
Lemma float_run lin rob p q lx ly : exists s, pycalls lin rob (solver_new world_new) (float_calls p q lx ly) = Some s /\ state_of (s_w s) 2 = P2 q /\ state_of (s_w s) 3 = L2 lx ly.
Proof. eexists. split; [cbv -[res_2poses2d jac_2poses2d res_landmark2d jac_landmark2d id3 lvec l3 dx3 lmat beside IZR v3zero]; reflexivity|]. split; reflexivity. Qed.
Example C80_ex_floating : forall lin rob p, exists s, let cs := float_calls p (mkV3 1 0 0) 3 1 in
  typed [] cs /\ floating loose cs /\ pycalls lin rob (solver_new world_new) cs = Some s /\ apart loose cs (state_of (s_w s)) /\ (forall om, turns_no_odom loose cs om) /\ loose 1%nat = true.
Proof.
  intros lin rob p. destruct (float_run lin rob p (mkV3 1 0 0) 3 1) as (s & E & S2 & S3). exists s. intros cs. split. { cbn. repeat split; auto; discriminate. }
  split. { split. - intros [|[|[|[|i]]]] H; [discriminate | exists (P2 p) | exists (P2 (mkV3 1 0 0)) | exists (L2 3 1) | discriminate]; (split; [reflexivity|cbn; auto]). - intros c [<-|[<-|[<-|[<-|[<-|[<-|[]]]]]]]; cbn; auto. }
  split; [exact E|]. split.
  - intros r b i j W u p0 x y I Si Ei Ej. destruct I as [H|[H|[H|[H|[H|[H|[]]]]]]]; [discriminate H|discriminate H|discriminate H|discriminate H|discriminate H|]. injection H as _ _ Hi Hj _ _. subst i j.
    rewrite S2 in Ei. rewrite S3 in Ej. injection Ei as <-. injection Ej as <- <-. cbn. lra.
  - split; auto. intros om. right. intros obs i j W [H|[H|[H|[H|[H|[H|[]]]]]]]; discriminate H.
Qed.
(** no factor reaches the second node *)
Example C80_ex_isolated : let cs := [CNode STANDARD (P2 (mkV3 1 2 0)); CNode STANDARD (P3 m4id); CPose2d (mkV3 0 0 0) 0 id3] in
  typed [] cs /\ nth_error (nodes_of cs) 1 = Some (STANDARD, P3 m4id) /\ forall c cl ids W, In c cs -> call_factor c = Some (cl, ids, W) -> ~ In 1%nat ids.
Proof.
  split. { cbn. repeat split; auto; discriminate. } split; [reflexivity|]. intros c cl ids W [<-|[<-|[<-|[]]]] E; try discriminate. injection E as <- <- <-. intros [|[]]. discriminate.
Qed.
(** an anchored landmark, observed twice from one pose *)
Example C80_ex_one_landmark : let cs := [CNode ANCHOR (L2 5 2); CNode STANDARD (P2 (mkV3 1 2 0)); CLandmark2d 4 0 1 0 id3 false; CLandmark2d 3 1 1 0 id3 false] in
  typed [] cs /\ nth_error (nodes_of cs) 1 = Some (STANDARD, P2 (mkV3 1 2 0)) /\
  forall c cl ids W, In c cs -> call_factor c = Some (cl, ids, W) -> In 1%nat ids -> exists range bearing W' u, c = CLandmark2d range bearing 1 0 W' u.
Proof.
  split. { cbn. repeat split; auto; discriminate. } split; [reflexivity|]. intros c cl ids W [<-|[<-|[<-|[<-|[]]]]] E I; try discriminate; do 4 eexists; reflexivity.
Qed.
(** three poses in a loop *)
Example C80_ex_centre : let cs := [CNode STANDARD (P2 (mkV3 1 2 0)); CNode STANDARD (P2 (mkV3 3 2 1)); CNode STANDARD (P2 (mkV3 3 4 2)); C2Poses2d (mkV3 2 0 1) 0 1 id3 false; C2Poses2d (mkV3 1 0 1) 1 2 id3 false; COdom2d (mkV3 0 1 0) 2 0 id3] in
  exact gauss /\ typed [] cs /\ Forall call_info cs /\ floating (fun i => Nat.ltb i 3) cs /\ forall range bearing i j W u, In (CLandmark2d range bearing i j W u) cs -> Nat.ltb i 3 = false.
Proof.
  intros cs. split; [exact gauss_exact|]. split. { cbn. repeat split; auto; discriminate. }
  split. { unfold cs. repeat (apply Forall_cons; [cbn; first [exact I | exact (id3_proper 3)]|]). constructor. }
  split. { split. - intros [|[|[|i]]] H; [exists (P2 (mkV3 1 2 0)) | exists (P2 (mkV3 3 2 1)) | exists (P2 (mkV3 3 4 2)) | discriminate]; (split; [reflexivity|cbn; auto]). - intros c [<-|[<-|[<-|[<-|[<-|[<-|[]]]]]]]; cbn; auto. }
  intros r b i j W u [H|[H|[H|[H|[H|[H|[]]]]]]]; discriminate H.
Qed.
