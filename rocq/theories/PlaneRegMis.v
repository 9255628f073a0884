(** INITIALIZE when some plane is not seen at time 0: wrong correspondences. *)
Require Import Reals List Arith Lia Lra Psatz Bool.
From Verif Require Import Lin LinFacts SO3 SE3 SpecGeom SE3Alg Factors3DLn Sums Registration SpecRegistration RegistrationProofs ArunProofs RegistrationMore Optimizer OptimizerProofs Planes SpecPlanes PlanesProofs PlanesEigen PlanesMore SpecPlaneReg PlaneRegProofs PlaneRegMore PlaneRegSolve PlaneRegInit PlaneRegBox.
Import ListNotations.
Local Open Scope R_scope.

Fixpoint pair_up (t : nat) (ys : list V3) (c : nat) (h : list entry) : option (list (V3 * V3)) :=
  match h with
  | [] => Some []
  | a :: h => match pair_up t ys (S c) h with
              | None => None
              | Some rest => if seen t a then match nth_error ys c with Some y => Some ((centre t a, y) :: rest) | None => None end else Some rest
              end
  end.
Lemma init_pairs_general N t ys h l : (t < N)%nat -> Forall2 (settled N) h l -> forall c, init_pairs t ys c l = pair_up t ys c h.
Proof.
  intros Ht. induction 1 as [|a [i p] h l SA F IH]; intros c; cbn [init_pairs pair_up]; [reflexivity|].
  pose proof (settled_number N a (i, p) t SA Ht) as EN. cbn [snd] in EN. rewrite EN, seen_case, IH.
  destruct (pair_up t ys (S c) h); auto. destruct (seen t a) eqn:SN; cbn [negb]; auto.
  pose proof (settled_mean N a (i, p) t SA Ht SN) as EM. cbn [snd] in EM. rewrite EM. reflexivity.
Qed.
Lemma initialize_two k h s r xy T : fst h = 2%nat -> after k h r -> sizes 2 (snd h) -> fresh (snd h) ->
  pair_up 1 (map (centre 0) (filter (seen 0) (snd h))) 0 (snd h) = Some xy -> arun (k_svd k) (map fst xy) (map snd xy) m4id = Some (1%nat, T) ->
  exists r', preg_solve (k_eigs k) (k_inv k) (k_svd k) INITIALIZE s r = Some (1%nat, r') /\ nth_error (pr_traj r') 1 = Some T.
Proof.
  intros HN AF SZ FR PU AR. destruct (after_length k h r AF ltac:(lia)) as [NP LT]. destruct (af_tracked _ _ _ AF) as [_ TK]. rewrite HN in *.
  destruct (estimated_all (k_eigs k) (pr_traj r) (snd h) (pr_planes r) TK) as (e & l & E); [eapply Forall_impl; [|exact SZ]; cbn; intros q H; rewrite H; lia|].
  pose proof (settled_start _ _ _ _ _ _ _ TK SZ FR E) as ST.
  unfold preg_solve, get_current_error. rewrite E. cbn [option_map fst snd]. cbv zeta. unfold solve_initialize. cbn [with_planes with_initial pr_planes].
  destruct (init_first_spec 2 (snd h) l ltac:(lia) ST) as (l' & E1 & ST'). rewrite E1. cbn [with_planes with_initial pr_nposes]. rewrite NP. cbn [Nat.sub seq init_poses with_planes with_initial pr_planes pr_traj].
  rewrite (init_pairs_general 2 1 _ (snd h) l' ltac:(lia) ST'), PU, AR, LT. cbn [Nat.ltb Nat.leb init_poses]. eexists. split; [reflexivity|]. cbn [with_traj pr_traj]. apply set_at_same. lia.
Qed.
(** six planes with one point each, the same at both times; a plane seen only at
    time 1; a plane seen only at time 0 *)
Definition moved7 : V3 := mkV3 7 0 0.
Definition moved14 : V3 := mkV3 14 0 0.
Definition mis : list reg_op :=
  RSet 8 2 :: map RNew (seq 0 8) ++ flat_map (fun q => [RPush (fst q) 0 (snd q); RPush (fst q) 1 (snd q)]) (combine (seq 0 6) (cross6 3 2 1)) ++ [RPush 6 1 moved7; RPush 7 0 moved14].
Definition mis_planes : list entry :=
  map (fun q => (fst q, (2%nat, [Push (snd q) 0; Push (snd q) 1]))) (combine (seq 0 6) (cross6 3 2 1)) ++ [(6%nat, (2%nat, [Push moved7 1])); (7%nat, (2%nat, [Push moved14 0]))].
Lemma mis_history : history mis = (2%nat, mis_planes). Proof. reflexivity. Qed.
Lemma mis_building : Forall building mis. Proof. repeat constructor. Qed.
Lemma mis_enabled : enabled_all (0%nat, []) mis. Proof. apply (wired_enabled mis []); [intros i [] | reflexivity]. Qed.
Lemma mean1 x : mean [x] = x. Proof. unfold mean. cbn [length INR v3sum fold_right]. destruct x. lin_unfold. apply v3_eq; field. Qed.
Lemma mis_first : map (centre 0) (filter (seen 0) mis_planes) = cross6 3 2 1 ++ [moved14].
Proof. cbn -[mean IZR moved7 moved14]. unfold centre. cbn -[mean IZR moved7 moved14]. rewrite !mean1. reflexivity. Qed.
Lemma mis_pairs : pair_up 1 (cross6 3 2 1 ++ [moved14]) 0 mis_planes = Some (combine (cross6 3 2 1 ++ [moved7]) (cross6 3 2 1 ++ [moved14])).
Proof. cbn -[mean IZR moved7 moved14]. unfold centre. cbn -[mean IZR moved7 moved14]. rewrite !mean1. reflexivity. Qed.
Lemma mis_gram : gram (centred (cross6 3 2 1 ++ [moved7])) (centred (cross6 3 2 1 ++ [moved14])) = diag3 (mkV3 102 8 2).
Proof.
  assert (M7 : mean (cross6 3 2 1 ++ [moved7]) = mkV3 1 0 0) by (unfold mean, cross6, moved7; cbn [app length v3sum fold_right INR]; lin_unfold; apply v3_eq; field).
  assert (M14 : mean (cross6 3 2 1 ++ [moved14]) = mkV3 2 0 0) by (unfold mean, cross6, moved14; cbn [app length v3sum fold_right INR]; lin_unfold; apply v3_eq; field).
  unfold centred. rewrite M7, M14. unfold cross6, moved7, moved14. cbn [app map]. unfold gram. cbn. unfold diag3. apply m3_eq; cbn; ring.
Qed.
Lemma mis_arun f : exact_svd f (cross6 3 2 1 ++ [moved7]) (cross6 3 2 1 ++ [moved14]) ->
  arun f (cross6 3 2 1 ++ [moved7]) (cross6 3 2 1 ++ [moved14]) m4id = Some (1%nat, mkM4 m3id (mkV3 1 0 0) v3zero 1).
Proof.
  intros X. set (g := fun _ : M3 => mkSvd m3id (mkV3 102 8 2) m3id). assert (G : exact_svd g (cross6 3 2 1 ++ [moved7]) (cross6 3 2 1 ++ [moved14])).
  { unfold exact_svd. rewrite mis_gram. apply diag_svd; lra. }
  rewrite (arun_svd_independent f g _ _ m4id X G).
  assert (M7 : mean (cross6 3 2 1 ++ [moved7]) = mkV3 1 0 0) by (unfold mean, cross6, moved7; cbn [app length v3sum fold_right INR]; lin_unfold; apply v3_eq; field).
  assert (M14 : mean (cross6 3 2 1 ++ [moved14]) = mkV3 2 0 0) by (unfold mean, cross6, moved14; cbn [app length v3sum fold_right INR]; lin_unfold; apply v3_eq; field).
  unfold arun. rewrite M7, M14. cbn [app length cross6 Nat.eqb negb]. cbv zeta. unfold g at 1. cbn [svd_D].
  replace (arun_reject (mkV3 102 8 2)) with false.
  2:{ unfold arun_reject, too_close. cbn [vx vy vz]. rewrite !Rabs_left1 by lra.
      destruct (Rltb (- (8 - 102)) (1 / 1000000)) eqn:A; [apply Rltb_true in A; lra|]. destruct (Rltb (- (2 - 8)) (1 / 1000000)) eqn:B; [apply Rltb_true in B; lra | reflexivity]. }
  replace (arun_rotation (g _)) with m3id; [replace (v3sub (mkV3 2 0 0) (m3app m3id (mkV3 1 0 0))) with (mkV3 1 0 0); [reflexivity | unfold m3id; lin_unfold; apply v3_eq; ring]|].
  unfold arun_rotation, g. cbn [svd_U svd_V]. rewrite m3tr_id, m3mul_id_l. destruct (Rltb (m3det m3id) 0) eqn:A; auto. apply Rltb_true in A. unfold m3id in A. lin_unfold_in A. lra.
Qed.
(** planes seen both times *)
Definition common (h : list entry) : list entry := filter (fun q => seen 0 q && seen 1 q) h.

Lemma common_eq h : common h = filter (fun q => seen 0 q && seen 1 q) h. Proof. reflexivity. Qed.
Lemma mis_wrong k s : (forall H, svd_of H (k_svd k H)) -> exists r0 r1 T, reg_run k mis preg_new = Some r0 /\
  preg_solve (k_eigs k) (k_inv k) (k_svd k) INITIALIZE s r0 = Some (1%nat, r1) /\ nth_error (pr_traj r1) 1 = Some T /\
  sq_error m4id (map (centre 1) (common (planes_of mis))) (map (centre 0) (common (planes_of mis))) = 0 /\
  sq_error T (map (centre 1) (common (planes_of mis))) (map (centre 0) (common (planes_of mis))) = 6.
Proof.
  intros SV. destruct (enabled_run k mis mis_enabled) as (r0 & E0 & F). pose proof (after_run k mis r0 F E0) as AF.
  pose proof (proj1 (building_history mis mis_building)) as SZ. pose proof (building_fresh mis mis_building) as FR. rewrite planes_of_eq in SZ, FR. rewrite poses_of_eq in SZ.
  rewrite mis_history in AF, SZ, FR. cbn [fst snd] in SZ, FR.
  destruct (initialize_two k (2%nat, mis_planes) s r0 (combine (cross6 3 2 1 ++ [moved7]) (cross6 3 2 1 ++ [moved14])) (mkM4 m3id (mkV3 1 0 0) v3zero 1)) as (r1 & E1 & N1); auto.
  - cbn [snd]. rewrite mis_first. exact mis_pairs.
  - change (arun (k_svd k) (cross6 3 2 1 ++ [moved7]) (cross6 3 2 1 ++ [moved14]) m4id = Some (1%nat, mkM4 m3id (mkV3 1 0 0) v3zero 1)). apply mis_arun. unfold exact_svd. auto.
  - exists r0, r1, (mkM4 m3id (mkV3 1 0 0) v3zero 1). do 3 (split; [assumption|]). rewrite planes_of_eq, mis_history. cbn [snd].
    assert (C1 : map (centre 1) (common mis_planes) = cross6 3 2 1) by (cbn -[mean IZR moved7 moved14]; unfold centre; cbn -[mean IZR moved7 moved14]; rewrite !mean1; reflexivity).
    assert (C0 : map (centre 0) (common mis_planes) = cross6 3 2 1) by (cbn -[mean IZR moved7 moved14]; unfold centre; cbn -[mean IZR moved7 moved14]; rewrite !mean1; reflexivity).
    rewrite C1, C0. unfold cross6. cbn [sq_error]. unfold move, v3sqn. cbn [mR mt m4id]. unfold m3id, v3zero. split; lin_unfold; ring.
Qed.
