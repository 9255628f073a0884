(** solve() of a PlaneRegistration: where it is defined, what it leaves. *)
Require Import Reals List Arith Lia Lra Psatz Bool.
From Verif Require Import Lin LinFacts SO3 SE3 SpecGeom SE3Alg Factors3DLn Sums Registration SpecRegistration RegistrationProofs ArunProofs Optimizer OptimizerProofs Planes SpecPlanes PlanesProofs PlanesMore SpecPlaneReg PlaneRegProofs PlaneRegMore.
Import ListNotations.
Local Open Scope R_scope.

(** ** The optimizer does not fail *)
Definition sized (n : nat) (l : list (nat * plane)) : Prop := Forall (fun q => exists pts, shape n pts (snd q)) l.
Definition ready (n : nat) (r : preg) : Prop := sized n (pr_planes r) /\ pr_nposes r = n /\ length (pr_traj r) = n.
Definition measured (n : nat) (p : plane) : Prop := pl_est p <> None /\ length (pl_Q p) = n.
Lemma sized_evolves eigs n l l' : evolves eigs l l' -> sized n l -> sized n l'.
Proof.
  induction 1 as [|q q' l l' (E & ext & F & R) V IH]; intros W; [constructor|]. inversion W as [|? ? (pts & SH) W1]; subst. constructor; [|apply IH; auto].
  destruct (quiet_run eigs ext n pts _ _ SH F R) as [SH' _]. eauto.
Qed.
Lemma sized_well n l : sized n l -> well l.
Proof. intros H. eapply Forall_impl; [|exact H]. intros q (pts & S). eauto. Qed.
Lemma Q_of_length tr Ss : length Ss = length tr -> length (Q_of tr Ss) = length tr.
Proof. intros H. unfold Q_of. rewrite map_length, combine_length, H. apply Nat.min_id. Qed.
Lemma S_used_length n pts p : shape n pts p -> length (S_used p) = n.
Proof.
  intros [A B C D]. unfold S_used. destruct D as [-> | D]; [rewrite map_length, B; auto|]. destruct (pl_S p); auto. rewrite map_length, B. auto.
Qed.
Lemma sized_estimate eigs n tr l : sized n l -> length tr = n -> exists e l', estimate_all eigs tr l = Some (e, l') /\ sized n l' /\ Forall (fun q => measured n (snd q)) l'.
Proof.
  intros W L. induction W as [|[i p] l (pts & SH) W (e & l' & E & W' & M)]; cbn [estimate_all]; [exists 0, []; repeat split; constructor|].
  destruct (estimate_spec eigs n pts p tr SH ltac:(lia)) as (p' & E1 & S1 & PS & _ & EQ & _ & EV & _). cbn [snd] in *. rewrite E1, E. do 2 eexists. split; [reflexivity|]. split; constructor; cbn [snd]; eauto.
  split; [rewrite EV; discriminate|]. rewrite EQ, Q_of_length; auto. rewrite (S_used_length n pts); auto.
Qed.
Lemma gh_planes_defined n t l : (t < n)%nat -> Forall (fun q => measured n (snd q)) l ->
  exists g h l', gh_planes t l = Some (g, h, l') /\ Forall (fun q => measured n (snd q)) l'.
Proof.
  intros Ht M. induction M as [|[i p] l (EV & LQ) M (g & h & l' & E & M')]; cbn [gh_planes]; [do 3 eexists; split; [reflexivity | constructor]|]. cbn [snd] in *.
  unfold calculate_gradient. destruct (nth_error (pl_Q p) t) as [Q|] eqn:EQ; [|apply nth_error_None in EQ; lia]. destruct (pl_est p) as [v|] eqn:EE; [|congruence]. cbv zeta.
  unfold calculate_hessian. cbn [pl_Q pl_est pl_gradQ]. rewrite EQ, E. replace (length (grad_Q Q) <? 6)%nat with false by reflexivity.
  do 3 eexists. split; [reflexivity|]. constructor; auto. split; cbn; [congruence | auto].
Qed.
Lemma gh_poses_defined n N ts l : (forall t, In t ts -> (t < n)%nat) -> Forall (fun q => measured n (snd q)) l ->
  exists g h l', gh_poses N ts l = Some (g, h, l').
Proof.
  revert l. induction ts as [|t ts IH]; intros l HT M; cbn [gh_poses]; [eauto|].
  destruct (gh_planes_defined n t l (HT t (or_introl eq_refl)) M) as (g & h & l1 & E & M1). rewrite E.
  destruct (IH l1 (fun u H => HT u (or_intror H)) M1) as (gs & hs & l2 & E2). rewrite E2. eauto.
Qed.
Lemma ready_kept eigs n r r' : ready n r -> kept eigs r r' -> ready n r'.
Proof. intros (A & B & C) [K1 K2 K3 _ _]. split; [eapply sized_evolves; eauto | split; congruence]. Qed.
Lemma ready_error eigs n r : ready n r -> exists e r', get_current_error eigs r = Some (e, r') /\ ready n r' /\ Forall (fun q => measured n (snd q)) (pr_planes r') /\ pr_traj r' = pr_traj r.
Proof.
  intros (A & B & C). destruct (sized_estimate eigs n (pr_traj r) _ A C) as (e & l & E & S & M). unfold get_current_error. rewrite E. cbn. do 2 eexists. split; [reflexivity|]. split; [|auto]. split; auto.
Qed.
Lemma ready_move n dx r : (0 < n)%nat -> ready n r -> exists r', move_last dx r = Some r' /\ ready n r' /\ on_line n (pr_traj r').
Proof.
  intros N (A & B & C). unfold move_last. rewrite (last_length n _ C). destruct (nth_error (pr_traj r) (n - 1)) as [T|] eqn:E; [|apply nth_error_None in E; lia].
  cbv zeta. rewrite B, middle_path by auto. cbn [option_map]. eexists. split; [reflexivity|]. cbn. split; [|apply path_line; auto]. split; cbn; auto. split; auto. rewrite path_length. auto.
Qed.
Lemma plane_total eigs n : (0 < n)%nat -> total (plane_problem eigs) (ready n).
Proof.
  intros N. constructor; cbn.
  - intros r R. destruct (ready_error eigs n r R) as (e & r' & E & R' & _). unfold pr_calculate_error. rewrite E. cbn. eauto.
  - intros r R. destruct (ready_error eigs n r R) as (e & r1 & E & R1 & M & _). unfold pr_gradient_hessian. rewrite E. destruct R as (_ & B & _). rewrite B.
    destruct (gh_poses_defined n n (seq 1 (n - 1)) (pr_planes r1)) as (g & h & l & G); auto; [intros t I; apply in_seq in I; lia|]. rewrite G. do 4 eexists. split; [reflexivity|].
    assert (R2 : ready n (with_planes r1 l)) by (eapply ready_kept; [exact R1|]; apply kept_planes; eapply (gh_poses_evolves eigs); exact G).
    split; auto. intros dx. destruct (ready_move n (v6_of dx) _ N R2) as (r' & E' & R' & _). eauto.
  - intros r R. eapply ready_kept; [exact R | apply (kept_book eigs)].
  - intros r R. eapply ready_kept; [exact R | apply kept_restore].
Qed.
Lemma lm_solve_total {X} (P : problem X) (I : X -> Prop) inv m mx la o : total P I -> I (o_x o) -> exists o' k, opt_solve P inv m mx la o = Some (o', k) /\ I (o_x o').
Proof.
  intros T HI. unfold opt_solve. destruct m; unfold opt_nr, opt_lm; cbn [o_x o_max]; destruct (tt_error _ _ T _ HI) as (x & e & E & I1); rewrite E.
  - apply (nr_fuel P inv I); auto. cbn. lia.
  - apply (lm_fuel P inv I); auto. cbn. lia.
  - apply (lm_fuel P inv I); auto. cbn. lia.
Qed.
Lemma solve_defined eigs inv jacobi m s n r : (0 < n)%nat -> ready n r -> m = GN_HESSIAN \/ m = MODE_LM_SPHER \/ m = MODE_LM_ELLIP -> exists r', preg_solve eigs inv jacobi m s r = Some (0%nat, r') /\ ready n r'.
Proof.
  intros N R M. unfold preg_solve. destruct (ready_error eigs n r R) as (e & r1 & E & R1 & _ & _). rewrite E. cbv zeta.
  assert (RO : forall om, exists r', run_optimizer eigs inv om 100 (with_initial r1 e) = Some r' /\ ready n r').
  { intros om. unfold run_optimizer. destruct (lm_solve_total (plane_problem eigs) (ready n) inv om 100 (1 / 100) (opt_new (with_initial r1 e) (1 / 10000) (1 / 100000)) (plane_total eigs n N) R1) as (o & k & E2 & R2).
    rewrite E2. cbn [option_map]. eexists. split; [reflexivity|]. exact R2. }
  destruct M as [-> | [-> | ->]]; [destruct (RO NEWTON_RAPHSON) as (r2 & E2 & R2) | destruct (RO LM_SPHER) as (r2 & E2 & R2) | destruct (RO LM_ELLIP) as (r2 & E2 & R2)]; rewrite E2; cbn [option_map]; eauto.
Qed.

(** ** After one iteration the trajectory is on the path *)
Section First.
Context {X : Type} (P : problem X) (inv : nat -> (nat -> nat -> R) -> nat -> nat -> R) (I0 I : X -> Prop).
Hypothesis ZE : forall x x' e, I0 x -> calculate_error P x = Some (x', e) -> I0 x'.
Hypothesis ZG : forall x x' q, I0 x -> calculate_gradient_hessian P x = Some (x', q) -> I0 x'.
Hypothesis ZB : forall x, I0 x -> I0 (bookkeep_state P x).
Hypothesis ZU : forall dx x x', I0 x -> update_state P dx x = Some x' -> I x'.
Hypothesis II : forall x, I x -> I0 x.
Hypothesis IE : forall x x' e, I x -> calculate_error P x = Some (x', e) -> I x'.
Hypothesis IG : forall x x' q, I x -> calculate_gradient_hessian P x = Some (x', q) -> I x'.
Hypothesis IB : forall x, I x -> I (bookkeep_state P x).
Hypothesis IR : forall x, I x -> I (update_state_from_bookkeep P x).
Lemma IU : forall dx x x', I x -> update_state P dx x = Some x' -> I x'.
Proof. intros dx x x' H E. eapply ZU; [|exact E]. auto. Qed.
Lemma first_iteration b o o' : I0 (o_x o) -> one_iteration P inv b o = Some o' -> I (o_x o').
Proof.
  intros H. unfold one_iteration. destruct (calculate_gradient_hessian P (o_x o)) as [[x1 [[n g] Hs]]|] eqn:E; [|discriminate].
  destruct (update_state P _ x1) as [x2|] eqn:U; [|discriminate]. intros Q. injection Q as <-. cbn. eapply ZU; [|exact U]. eapply ZG; eauto.
Qed.
Lemma first_pass prev o o' prev' e : I0 (o_x o) -> lm_pass P inv prev o = Some (o', prev', e) -> I (o_x o').
Proof.
  intros H E. unfold lm_pass in E. destruct (one_iteration P inv true _) as [o1|] eqn:E1; [|discriminate]. apply first_iteration in E1; [|cbn; auto].
  destruct (calculate_error P (o_x o1)) as [[x2 cur]|] eqn:E2; [|discriminate]. apply IE in E2; auto.
  destruct (decide _ _ _); injection E as <- _ _; cbn; auto.
Qed.
Lemma first_solve m mx la o o' k : I0 (o_x o) -> opt_solve P inv m mx la o = Some (o', k) -> I (o_x o').
Proof.
  intros H E. unfold opt_solve, opt_nr, opt_lm in E. destruct m; cbn [o_x o_max] in E; (destruct (calculate_error P (o_x o)) as [[x e]|] eqn:E1; [|discriminate]); apply ZE in E1; auto.
  - cbn [nr_loop] in E. destruct (one_iteration P inv false _) as [o1|] eqn:E2; [|discriminate]. apply first_iteration in E2; [|exact E1].
    destruct (calculate_error P (o_x o1)) as [[x2 cur]|] eqn:E3; [|discriminate]. apply IE in E3; auto.
    destruct (andb _ _); [|injection E as <- _; exact E3]. eapply (oi_nr P inv I IE IG IU); [|exact E]. exact E3.
  - cbn [lm_steps] in E. destruct (lm_pass P inv _ _) as [[[o1 prev1] d]|] eqn:E2; [|discriminate]. apply first_pass in E2; [|exact E1].
    destruct d.
    + destruct (Nat.ltb _ _); [eapply (oi_lm P inv I IE IG IU IB IR); [|exact E]; auto|]. destruct (calculate_error P _) as [[x3 c]|] eqn:E3; [|discriminate]. injection E as <- _. cbn. eapply IE; [|exact E3]. cbn. auto.
    + injection E as <- _. auto.
    + destruct (Nat.ltb _ _); [eapply (oi_lm P inv I IE IG IU IB IR); [|exact E]; auto|]. destruct (calculate_error P _) as [[x3 c]|] eqn:E3; [|discriminate]. injection E as <- _. cbn. eapply IE; [|exact E3]. auto.
  - cbn [lm_steps] in E. destruct (lm_pass P inv _ _) as [[[o1 prev1] d]|] eqn:E2; [|discriminate]. apply first_pass in E2; [|exact E1].
    destruct d.
    + destruct (Nat.ltb _ _); [eapply (oi_lm P inv I IE IG IU IB IR); [|exact E]; auto|]. destruct (calculate_error P _) as [[x3 c]|] eqn:E3; [|discriminate]. injection E as <- _. cbn. eapply IE; [|exact E3]. cbn. auto.
    + injection E as <- _. auto.
    + destruct (Nat.ltb _ _); [eapply (oi_lm P inv I IE IG IU IB IR); [|exact E]; auto|]. destruct (calculate_error P _) as [[x3 c]|] eqn:E3; [|discriminate]. injection E as <- _. cbn. eapply IE; [|exact E3]. auto.
Qed.
End First.
Lemma optimizer_lined eigs inv m mx n r r' : (0 < n)%nat -> ready n r -> run_optimizer eigs inv m mx r = Some r' -> lined n r'.
Proof.
  intros N R. unfold run_optimizer. destruct (opt_solve _ _ _ _ _ _) as [[o kk]|] eqn:E; [|discriminate]. cbn [option_map]. intros H. injection H as <-.
  destruct (plane_lawful eigs n N) as [A B _ D F].
  apply (first_solve (plane_problem eigs) inv (ready n) (fun r => ready n r /\ lined n r)) in E; auto.
  - exact (proj2 E).
  - intros x x' e HI HE. eapply ready_kept; [exact HI|]. exact (kept_calc eigs _ _ _ HE).
  - intros x x' q HI HE. eapply ready_kept; [exact HI|]. exact (kept_gh eigs _ _ _ HE).
  - intros x HI. eapply ready_kept; [exact HI|]. apply (kept_book eigs).
  - intros dx x x' HI HE. cbn in HE. unfold pr_update_state in HE. destruct (ready_move n (v6_of dx) x N HI) as (y & E1 & R1 & L1). rewrite E1 in HE. injection HE as <-. split; auto.
    pose proof R1 as (S1 & S2 & S3). split; [eapply sized_well; eauto | auto].
  - intros x [HI _]. exact HI.
  - intros x x' e [HI HL] HE. split; [|apply (A _ _ _ HL HE)]. eapply ready_kept; [exact HI|]. exact (kept_calc eigs _ _ _ HE).
  - intros x x' q [HI HL] HE. split; [|apply (B _ _ _ HL HE)]. eapply ready_kept; [exact HI|]. exact (kept_gh eigs _ _ _ HE).
  - intros x [HI HL]. split; [|apply (D _ HL)]. eapply ready_kept; [exact HI|]. apply (kept_book eigs).
  - intros x [HI HL]. split; [|apply (F _ HL)]. eapply ready_kept; [exact HI|]. apply kept_restore.
Qed.
Definition optimizing (m : solve_mode) : Prop := m = GN_HESSIAN \/ m = MODE_LM_SPHER \/ m = MODE_LM_ELLIP.
Lemma solve_lined eigs inv jacobi m s n r c r' : (0 < n)%nat -> ready n r -> optimizing m -> preg_solve eigs inv jacobi m s r = Some (c, r') -> lined n r'.
Proof.
  intros N R M. unfold preg_solve. destruct (ready_error eigs n r R) as (e & r1 & E & R1 & _ & _). rewrite E. cbv zeta.
  destruct M as [-> | [-> | ->]]; (destruct (run_optimizer _ _ _ _ _) as [r2|] eqn:E2; [|discriminate]); cbn [option_map]; intros H; injection H as _ <-; (eapply optimizer_lined; [exact N | | exact E2]; exact R1).
Qed.
(** ** LM never makes it worse on the path *)
Lemma solve_not_worse eigs inv jacobi m s n r c r' : (0 < n)%nat -> lined n r -> m = MODE_LM_SPHER \/ m = MODE_LM_ELLIP -> preg_solve eigs inv jacobi m s r = Some (c, r') ->
  lined n r' /\ ecost eigs (pr_traj r') (pr_planes r') <= ecost eigs (pr_traj r) (pr_planes r).
Proof.
  intros N HL M. unfold preg_solve. destruct (get_current_error eigs r) as [[e r0]|] eqn:E; [|discriminate]. cbv zeta.
  pose proof (kept_error _ _ _ _ E) as ([_ K2 _ _ _] & K3 & _). pose proof (lined_error eigs n r e r0 HL E) as L0.
  assert (C0 : ecost eigs (pr_traj r0) (pr_planes r0) = ecost eigs (pr_traj r) (pr_planes r)) by (rewrite K3; apply (evolves_cost _ _ _ K2); apply HL).
  assert (GO : forall om r2, om <> NEWTON_RAPHSON -> run_optimizer eigs inv om 100 (with_initial r0 e) = Some r2 -> lined n r2 /\ ecost eigs (pr_traj r2) (pr_planes r2) <= ecost eigs (pr_traj r) (pr_planes r)).
  { intros om r2 NO H. unfold run_optimizer, opt_solve in H. destruct om; [congruence| |];
    (destruct (opt_lm _ _ _) as [[o k]|] eqn:EO; [|discriminate]); cbn [option_map] in H; injection H as <-; cbn [fst snd];
    (apply (lm_cost (plane_problem eigs) inv (lined n) _ (plane_lawful eigs n N)) in EO; [|intros x _; discriminate | exact L0]);
    destruct EO as [L2 (a & b & A & B & C)]; injection A as <-; injection B as <-; (split; [exact L2|]); rewrite <- C0; exact C. }
  destruct M as [-> | ->]; (destruct (run_optimizer _ _ _ _ _) as [r2|] eqn:E2; [|discriminate]); cbn [option_map]; intros H; injection H as _ <-; eapply GO; eauto; discriminate.
Qed.
