(** Proofs about PlaneRegistration: what every method keeps. *)
Require Import Reals List Arith Lia Lra Psatz Bool.
From Verif Require Import Lin LinFacts SO3 SE3 SpecGeom SE3Alg Sums Registration SpecRegistration ArunProofs Optimizer OptimizerProofs Planes SpecPlanes PlanesProofs PlanesMore SpecPlaneReg.
Import ListNotations.
Local Open Scope R_scope.

(** ** Invariants of the optimizer loops *)
Section OptInv.
Context {X : Type} (P : problem X) (inv : nat -> (nat -> nat -> R) -> nat -> nat -> R) (I : X -> Prop).
Hypothesis IE : forall x x' e, I x -> calculate_error P x = Some (x', e) -> I x'.
Hypothesis IG : forall x x' q, I x -> calculate_gradient_hessian P x = Some (x', q) -> I x'.
Hypothesis IU : forall dx x x', I x -> update_state P dx x = Some x' -> I x'.
Hypothesis IB : forall x, I x -> I (bookkeep_state P x).
Hypothesis IR : forall x, I x -> I (update_state_from_bookkeep P x).
Lemma oi_iteration b o o' : I (o_x o) -> one_iteration P inv b o = Some o' -> I (o_x o').
Proof.
  intros H. unfold one_iteration. destruct (calculate_gradient_hessian P (o_x o)) as [[x1 [[n g] Hs]]|] eqn:E; [|discriminate].
  destruct (update_state P _ x1) as [x2|] eqn:U; [|discriminate]. intros Q. injection Q as <-. cbn. eapply IU; [|exact U]. eapply IG; eauto.
Qed.
Lemma oi_nr fuel : forall iters prev o o' k, I (o_x o) -> nr_loop P inv fuel iters prev o = Some (o', k) -> I (o_x o').
Proof.
  induction fuel as [|fuel IH]; intros iters prev o o' k H E; [discriminate|]. cbn [nr_loop] in E.
  destruct (one_iteration P inv false o) as [o1|] eqn:E1; [|discriminate]. apply oi_iteration in E1; auto.
  destruct (calculate_error P (o_x o1)) as [[x2 cur]|] eqn:E2; [|discriminate]. apply IE in E2; auto.
  destruct (andb _ _); [apply IH in E; auto | injection E as <- _; auto].
Qed.
Lemma oi_pass prev o o' prev' e : I (o_x o) -> lm_pass P inv prev o = Some (o', prev', e) -> I (o_x o').
Proof.
  intros H E. unfold lm_pass in E. destruct (one_iteration P inv true _) as [o1|] eqn:E1; [|discriminate]. apply oi_iteration in E1; [|cbn; auto].
  destruct (calculate_error P (o_x o1)) as [[x2 cur]|] eqn:E2; [|discriminate]. apply IE in E2; auto.
  destruct (decide _ _ _); injection E as <- _ _; cbn; auto.
Qed.
Lemma oi_lm fuel : forall iters prev o o' k, I (o_x o) -> lm_steps P inv fuel iters prev o = Some (o', k) -> I (o_x o').
Proof.
  induction fuel as [|fuel IH]; intros iters prev o o' k H E; [discriminate|]. cbn [lm_steps] in E.
  destruct (lm_pass P inv prev o) as [[[o1 prev1] e]|] eqn:E1; [|discriminate]. apply oi_pass in E1; auto.
  destruct e.
  - destruct (Nat.ltb _ _); [apply IH in E; auto|]. destruct (calculate_error P _) as [[x3 c]|] eqn:E2; [|discriminate]. injection E as <- _. cbn. eapply IE; [|exact E2]. cbn. auto.
  - injection E as <- _. auto.
  - destruct (Nat.ltb _ _); [apply IH in E; auto|]. destruct (calculate_error P _) as [[x3 c]|] eqn:E2; [|discriminate]. injection E as <- _. cbn. eapply IE; [|exact E2]. auto.
Qed.
Lemma oi_solve m mx la o o' k : I (o_x o) -> opt_solve P inv m mx la o = Some (o', k) -> I (o_x o').
Proof.
  intros H E. unfold opt_solve, opt_nr, opt_lm in E. destruct m; cbn [o_x o_max] in E; (destruct (calculate_error P (o_x o)) as [[x e]|] eqn:E1; [|discriminate]); apply IE in E1; auto.
  - eapply oi_nr; [|exact E]. exact E1.
  - eapply oi_lm; [|exact E]. exact E1.
  - eapply oi_lm; [|exact E]. exact E1.
Qed.
End OptInv.

(** ** Planes evolve by evaluations only *)
Definition quiet (o : plane_op) : Prop := match o with Estimate _ | Gradient _ | CalcS false => True | _ => False end.
Definition evolves (eigs : M4 -> eigen4) (l l' : list (nat * plane)) : Prop :=
  Forall2 (fun q q' => fst q = fst q' /\ exists ext, Forall quiet ext /\ plane_run eigs ext (snd q) = Some (snd q')) l l'.
Lemma evolves_refl eigs l : evolves eigs l l.
Proof. induction l; constructor; auto. split; auto. exists []. auto. Qed.
Lemma evolves_trans eigs a b c : evolves eigs a b -> evolves eigs b c -> evolves eigs a c.
Proof.
  intros H. revert c. induction H as [|x y a b (E & e1 & F1 & R1) H IH]; intros c G; inversion G as [|? z ? c' (E2 & e2 & F2 & R2) G']; subst; constructor; auto; [|apply IH; auto].
  split; [congruence|]. exists (e1 ++ e2). split; [apply Forall_app; auto|]. rewrite run_app, R1. auto.
Qed.
Lemma one_op eigs o p p' : quiet o -> plane_step eigs o p = Some p' -> exists ext, Forall quiet ext /\ plane_run eigs ext p = Some p'.
Proof. intros Q E. exists [o]. split; auto. cbn. rewrite E. auto. Qed.
Lemma estimate_all_evolves eigs tr l e l' : estimate_all eigs tr l = Some (e, l') -> evolves eigs l l'.
Proof.
  revert e l'. induction l as [|[i p] l IH]; intros e l' H; cbn in H; [injection H as _ <-; constructor|].
  destruct (estimate_plane eigs tr p) as [[e1 p1]|] eqn:E; [|discriminate]. destruct (estimate_all eigs tr l) as [[s l1]|]; [|discriminate]. injection H as _ <-.
  constructor; [|eapply IH; eauto]. split; auto. apply (one_op eigs (Estimate tr)); [exact I|]. cbn. rewrite E. auto.
Qed.
Lemma gh_planes_evolves eigs t l g h l' : gh_planes t l = Some (g, h, l') -> evolves eigs l l'.
Proof.
  revert g h l'. induction l as [|[i p] l IH]; intros g h l' H; cbn in H; [injection H as _ _ <-; constructor|].
  destruct (calculate_gradient t p) as [[g1 p1]|] eqn:E; [|discriminate]. destruct (calculate_hessian t p1); [|discriminate].
  destruct (gh_planes t l) as [[[gs hs] l1]|]; [|discriminate]. injection H as _ _ <-.
  constructor; [|eapply IH; eauto]. split; auto. apply (one_op eigs (Gradient t)); [exact I|]. cbn. rewrite E. auto.
Qed.
Lemma gh_poses_evolves eigs n ts : forall l g h l', gh_poses n ts l = Some (g, h, l') -> evolves eigs l l'.
Proof.
  induction ts as [|t ts IH]; intros l g h l' H; cbn in H; [injection H as _ _ <-; apply evolves_refl|].
  destruct (gh_planes t l) as [[[g1 h1] l1]|] eqn:E; [|discriminate]. destruct (gh_poses n ts l1) as [[[gs hs] l2]|] eqn:E2; [|discriminate]. injection H as _ _ <-.
  eapply evolves_trans; [eapply gh_planes_evolves; eauto | eapply IH; eauto].
Qed.
Lemma grad_planes_evolves eigs t l g n l' : grad_planes t l = Some (g, n, l') -> evolves eigs l l'.
Proof.
  revert g n l'. induction l as [|[i p] l IH]; intros g n l' H; cbn in H; [injection H as _ _ <-; constructor|].
  destruct (calculate_gradient t p) as [[g1 p1]|] eqn:E; [|discriminate]. destruct (get_number_points t p1); [|discriminate].
  destruct (grad_planes t l) as [[[gs hs] l1]|]; [|discriminate]. injection H as _ _ <-.
  constructor; [|eapply IH; eauto]. split; auto. apply (one_op eigs (Gradient t)); [exact I|]. cbn. rewrite E. auto.
Qed.
Lemma grad_poses_evolves eigs ts : forall l gs l', grad_poses ts l = Some (gs, l') -> evolves eigs l l' /\ map (fun q => fst (fst q)) gs = ts.
Proof.
  induction ts as [|t ts IH]; intros l gs l' H; cbn in H; [injection H as <- <-; split; [apply evolves_refl | auto]|].
  destruct (grad_planes t l) as [[[g1 n1] l1]|] eqn:E; [|discriminate]. destruct (grad_poses ts l1) as [[gs1 l2]|] eqn:E2; [|discriminate]. injection H as <- <-.
  destruct (IH _ _ _ E2) as [A B]. split; [eapply evolves_trans; [eapply grad_planes_evolves; eauto | auto]|]. cbn. f_equal. auto.
Qed.
Lemma init_first_evolves eigs l ys l' : init_first l = Some (ys, l') -> evolves eigs l l'.
Proof.
  revert ys l'. induction l as [|[i p] l IH]; intros ys l' H; cbn in H; [injection H as _ <-; constructor|].
  destruct (calculate_all_matrices_S false p) as [p1|] eqn:E; [|discriminate]. destruct (get_number_points 0 p1) as [n|]; [|discriminate].
  destruct (init_first l) as [[ys1 l1]|]; [|discriminate].
  assert (Q : exists ext, Forall quiet ext /\ plane_run eigs ext p = Some p1) by (apply (one_op eigs (CalcS false)); [exact I | exact E]).
  destruct (n =? 0)%nat; [injection H as _ <-; constructor; [split; auto | eapply IH; eauto]|].
  destruct (mean_at 0 p1); [|discriminate]. injection H as _ <-. constructor; [split; auto | eapply IH; eauto].
Qed.

(** ** What every method keeps *)
Record kept (eigs : M4 -> eigen4) (r r' : preg) : Prop := {
  k_n : pr_nposes r' = pr_nposes r;
  k_ev : evolves eigs (pr_planes r) (pr_planes r');
  k_len : length (pr_traj r') = length (pr_traj r);
  k_first : (2 <= length (pr_traj r))%nat -> nth_error (pr_traj r') 0 = nth_error (pr_traj r) 0;
  k_hom : Forall hom4 (pr_book r :: pr_traj r) -> Forall hom4 (pr_book r' :: pr_traj r') }.
Lemma kept_refl eigs r : kept eigs r r.
Proof. constructor; auto. apply evolves_refl. Qed.
Lemma kept_trans eigs a b c : kept eigs a b -> kept eigs b c -> kept eigs a c.
Proof.
  intros [A1 A2 A3 A4 A5] [B1 B2 B3 B4 B5]. constructor; auto; try congruence; [eapply evolves_trans; eauto|].
  intros H. rewrite B4 by congruence. auto.
Qed.
Lemma kept_planes eigs r l : evolves eigs (pr_planes r) l -> kept eigs r (with_planes r l).
Proof. intros H. constructor; auto. Qed.
Lemma kept_traj eigs r tr : length tr = length (pr_traj r) -> ((2 <= length (pr_traj r))%nat -> nth_error tr 0 = nth_error (pr_traj r) 0) ->
  (Forall hom4 (pr_book r :: pr_traj r) -> Forall hom4 tr) -> kept eigs r (with_traj r tr).
Proof. intros A B C. constructor; auto; [apply evolves_refl|]. intros H. cbn. constructor; auto. inversion H; auto. Qed.
Lemma kept_error eigs r e r' : get_current_error eigs r = Some (e, r') -> kept eigs r r' /\ pr_traj r' = pr_traj r /\ pr_book r' = pr_book r.
Proof.
  unfold get_current_error. destruct (estimate_all eigs (pr_traj r) (pr_planes r)) as [[e1 l]|] eqn:E; [|discriminate]. intros H. injection H as <- <-.
  split; [|auto]. apply kept_planes. eapply estimate_all_evolves; eauto.
Qed.
Lemma kept_calc eigs r r' e : pr_calculate_error eigs r = Some (r', e) -> kept eigs r r'.
Proof.
  unfold pr_calculate_error. destruct (get_current_error eigs r) as [[e1 r1]|] eqn:E; [|discriminate]. intros H. injection H as <- _. apply kept_error in E. tauto.
Qed.
Lemma kept_gh eigs r r' q : pr_gradient_hessian eigs r = Some (r', q) -> kept eigs r r'.
Proof.
  unfold pr_gradient_hessian. destruct (get_current_error eigs r) as [[e1 r1]|] eqn:E; [|discriminate]. apply kept_error in E. destruct E as [E _].
  destruct (gh_poses _ _ _) as [[[g h] l]|] eqn:E2; [|discriminate]. intros H. injection H as <- _. eapply kept_trans; [exact E|]. apply kept_planes. eapply gh_poses_evolves; eauto.
Qed.
Lemma set_back_first T tr : (2 <= length tr)%nat -> nth_error (set_back T tr) 0 = nth_error tr 0.
Proof. intros H. unfold set_back. apply set_at_other. lia. Qed.
Lemma set_at_forall {A} (P : A -> Prop) i x l : P x -> Forall P l -> Forall P (set_at i x l).
Proof. intros Hx F. revert i. induction F; intros [|i]; cbn; constructor; auto. Qed.
Lemma set_back_length T tr : length (set_back T tr) = length tr.
Proof. apply set_at_length. Qed.
Lemma interpolate_length n xi lo hi tr : length (interpolate n xi lo hi tr) = length tr.
Proof. unfold interpolate. rewrite map_length, combine_length, seq_length. lia. Qed.
Lemma interpolate_nth n xi lo hi tr t T : nth_error tr t = Some T ->
  nth_error (interpolate n xi lo hi tr) t = Some (if (lo <=? t)%nat && (t <? hi)%nat then interpolated n xi t else T).
Proof.
  intros E. unfold interpolate. assert (L : (t < length tr)%nat) by (apply nth_error_Some; congruence).
  erewrite map_nth_error; [|rewrite nth_error_combine, E; rewrite (nth_error_nth' _ 0%nat) by (rewrite seq_length; auto); rewrite seq_nth by auto; reflexivity]. reflexivity.
Qed.
Lemma interpolate_out n xi lo hi tr t : (t < lo)%nat \/ (hi <= t)%nat -> nth_error (interpolate n xi lo hi tr) t = nth_error tr t.
Proof.
  intros H. destruct (nth_error tr t) as [T|] eqn:E.
  - rewrite (interpolate_nth _ _ _ _ _ _ _ E). destruct (Nat.leb_spec lo t), (Nat.ltb_spec t hi); cbn [andb]; auto. lia.
  - apply nth_error_None. rewrite interpolate_length. apply nth_error_None. auto.
Qed.
Lemma exp_hom xi : hom4 (se3_of_vec xi).
Proof. destruct xi as [w v]. rewrite se3_of_vec_block. cbn. split; reflexivity. Qed.
Lemma interpolate_hom n xi lo hi tr : Forall hom4 tr -> Forall hom4 (interpolate n xi lo hi tr).
Proof.
  intros F. apply Forall_forall. intros T H. unfold interpolate in H. apply in_map_iff in H. destruct H as ([t T0] & <- & H). cbn [fst snd].
  destruct (_ && _); [apply exp_hom|]. apply in_combine_r in H. rewrite Forall_forall in F. auto.
Qed.
Lemma middle_spec n xi tr tr' : interpolate_middle n xi tr = Some tr' -> tr' = interpolate n xi 1 (n - 1) tr /\ n <> 0%nat /\ (n - 1 <= length tr \/ n = 1)%nat.
Proof.
  unfold interpolate_middle. destruct (Nat.eqb_spec n 0); [discriminate|]. destruct (Nat.leb_spec (n - 1) (length tr)); cbn.
  - intros H1. injection H1 as <-. auto.
  - destruct (Nat.eqb_spec n 1); [|discriminate]. intros H1. injection H1 as <-. auto.
Qed.
Lemma kept_path eigs r n xi T tr' : hom4 T \/ (Forall hom4 (pr_book r :: pr_traj r) -> hom4 T) -> interpolate_middle n xi (set_back T (pr_traj r)) = Some tr' -> kept eigs r (with_traj r tr').
Proof.
  intros HT E. apply middle_spec in E. destruct E as (-> & _). apply kept_traj.
  - rewrite interpolate_length, set_back_length. auto.
  - intros H. rewrite interpolate_out by lia. apply set_back_first. auto.
  - intros F. apply interpolate_hom. apply set_at_forall; [|inversion F; auto]. destruct HT; auto.
Qed.
Lemma last_hom r T : last_pose (pr_traj r) = Some T -> Forall hom4 (pr_book r :: pr_traj r) -> hom4 T.
Proof. intros E F. inversion F. rewrite Forall_forall in H2. apply H2. eapply nth_error_In; eauto. Qed.
Lemma kept_move eigs dx r r' : move_last dx r = Some r' -> kept eigs r r'.
Proof.
  unfold move_last. destruct (last_pose (pr_traj r)) as [T|] eqn:E; [|discriminate]. destruct (interpolate_middle _ _ _) as [tr'|] eqn:E2; [|discriminate].
  intros H. injection H as <-. eapply kept_path; [|exact E2]. right. intros F. apply update_hom. eapply last_hom; eauto.
Qed.
Lemma kept_book eigs r : kept eigs r (pr_bookkeep_state r).
Proof.
  unfold pr_bookkeep_state. destruct (get_last_pose r) as [T|] eqn:E; [|apply kept_refl]. constructor; auto; [apply evolves_refl|].
  intros F. cbn. constructor; [eapply last_hom; eauto | inversion F; auto].
Qed.
Lemma kept_restore eigs r : kept eigs r (pr_restore eigs r).
Proof.
  unfold pr_restore. destruct (interpolate_middle _ _ _) as [tr'|] eqn:E2; [|apply kept_refl].
  assert (K : kept eigs r (with_traj r tr')) by (eapply kept_path; [|exact E2]; right; intros F; inversion F; auto).
  destruct (get_current_error eigs (with_traj r tr')) as [[e r1]|] eqn:E; [|exact K]. eapply kept_trans; [exact K|]. apply kept_error in E. tauto.
Qed.
Lemma kept_iters eigs r n : kept eigs r (with_iters r n).
Proof. constructor; auto. apply evolves_refl. Qed.
Lemma kept_prev eigs r n : kept eigs r (with_prev r n).
Proof. constructor; auto. apply evolves_refl. Qed.
Lemma kept_initial eigs r n : kept eigs r (with_initial r n).
Proof. constructor; auto. apply evolves_refl. Qed.
Lemma kept_optimizer eigs inv m mx r r' : run_optimizer eigs inv m mx r = Some r' -> kept eigs r r'.
Proof.
  unfold run_optimizer. destruct (opt_solve _ _ _ _ _ _) as [[o k]|] eqn:E; [|discriminate]. intros H. injection H as <-. cbn.
  eapply kept_trans; [|apply kept_iters]. refine (oi_solve (plane_problem eigs) inv (kept eigs r) _ _ _ _ _ m mx (1/100) _ o k _ E); cbn.
  - intros x x' e K C. eapply kept_trans; [exact K|]. eapply kept_calc; eauto.
  - intros x x' q K C. eapply kept_trans; [exact K|]. eapply kept_gh; eauto.
  - intros dx x x' K C. eapply kept_trans; [exact K|]. eapply kept_move; eauto.
  - intros x K. eapply kept_trans; [exact K|]. apply kept_book.
  - intros x K. eapply kept_trans; [exact K|]. apply kept_restore.
  - apply kept_refl.
Qed.
Lemma move_poses_spec k : forall gs tr tr', move_poses k gs tr = Some tr' -> length tr' = length tr /\
  (Forall (fun q => fst (fst q) <> 0%nat) gs -> nth_error tr' 0 = nth_error tr 0) /\ (Forall hom4 tr -> Forall hom4 tr').
Proof.
  induction gs as [|[[t g] n] gs IH]; intros tr tr' H; cbn in H; [injection H as <-; auto|].
  destruct (nth_error tr t) as [T|] eqn:E; [|discriminate]. apply IH in H. destruct H as (A & B & C). split; [rewrite A, set_at_length; auto|]. split.
  - intros F. inversion F; subst. rewrite B by auto. apply set_at_other. auto.
  - intros F. apply C. apply set_at_forall; auto. apply update_hom. rewrite Forall_forall in F. apply F. eapply nth_error_In; eauto.
Qed.
Lemma seq_not_zero gs n : map (fun q : nat * V6 * nat => fst (fst q)) gs = seq 1 n -> Forall (fun q => fst (fst q) <> 0%nat) gs.
Proof. intros H. apply Forall_forall. intros q Q Z. assert (I : In (fst (fst q)) (seq 1 n)) by (rewrite <- H; apply in_map with (f := fun q : nat * V6 * nat => fst (fst q)); auto). apply in_seq in I. lia. Qed.
Lemma kept_all_poses eigs r e r' : all_poses_pass eigs r = Some (e, r') -> kept eigs r r'.
Proof.
  unfold all_poses_pass. destruct (get_current_error eigs r) as [[e1 r1]|] eqn:E; [|discriminate]. apply kept_error in E. destruct E as (E & ET & EB).
  destruct (grad_poses _ _) as [[gs l]|] eqn:E2; [|discriminate]. destruct (_ =? 0)%nat; [discriminate|]. destruct (move_poses _ _ _) as [tr|] eqn:E3; [|discriminate].
  intros H. injection H as _ <-. apply (grad_poses_evolves eigs) in E2. destruct E2 as [E2 E4]. apply seq_not_zero in E4. apply move_poses_spec in E3. destruct E3 as (A & B & C).
  eapply kept_trans; [exact E|]. eapply kept_trans; [apply kept_planes; exact E2|]. apply kept_traj; cbn; auto. intros F. inversion F; auto.
Qed.
Lemma kept_nag eigs r e r' : nag_pass eigs r = Some (e, r') -> kept eigs r r'.
Proof.
  unfold nag_pass. destruct (get_current_error eigs r) as [[e1 r1]|] eqn:E; [|discriminate]. apply kept_error in E. destruct E as (E & ET & EB).
  destruct (grad_poses _ _) as [[gs l]|] eqn:E2; [|discriminate]. destruct (existsb _ _); [discriminate|]. destruct (rev (pr_prev r1)) as [|v older]; [discriminate|].
  destruct (move_last _ _) as [r2|] eqn:E3; [|discriminate]. intros H. injection H as _ <-. apply (grad_poses_evolves eigs) in E2. destruct E2 as [E2 _].
  eapply kept_trans; [exact E|]. eapply kept_trans; [apply kept_planes; exact E2|]. eapply kept_trans; [eapply kept_move; eauto | apply kept_prev].
Qed.
Lemma descend_inv (I : preg -> Prop) pass single : (forall r e r', I r -> pass r = Some (e, r') -> I r') -> (forall r n, I r -> I (with_iters r n)) ->
  forall fuel iters prev r r', I r -> descend pass single fuel iters prev r = Some r' -> I r'.
Proof.
  intros HP HW. induction fuel as [|fuel IH]; intros iters prev r r' H E; cbn [descend] in E; [injection E as <-; auto|].
  destruct (pass r) as [[e r1]|] eqn:E1; [|discriminate]. apply HP in E1; auto. destruct (_ && _); [eapply IH; eauto | injection E as <-; auto].
Qed.
Lemma kept_descend eigs pass single fuel iters prev r r' : (forall r e r', pass r = Some (e, r') -> kept eigs r r') ->
  descend pass single fuel iters prev r = Some r' -> kept eigs r r'.
Proof.
  intros HP E. refine (descend_inv (kept eigs r) pass single _ _ fuel iters prev r r' (kept_refl eigs r) E).
  - intros x e x' K C. eapply kept_trans; [exact K | eapply HP; eauto].
  - intros x n K. eapply kept_trans; [exact K | apply kept_iters].
Qed.
Lemma arun_hom f X Y T r T' : arun f X Y T = Some (r, T') -> hom4 T -> hom4 T'.
Proof. intros H HT. apply arun_inv in H. destruct H as (_ & [(_ & _ & ->) | (_ & _ & ->)]); auto. split; reflexivity. Qed.
Lemma kept_init_poses eigs jacobi ys ts : (forall t, In t ts -> t <> 0%nat) -> forall r c r', init_poses jacobi ys ts r = Some (c, r') -> kept eigs r r'.
Proof.
  induction ts as [|t ts IH]; intros HT r c r' H; cbn [init_poses] in H; [injection H as _ <-; apply kept_refl|].
  destruct (init_pairs t ys 0 (pr_planes r)) as [xy|]; [|discriminate]. destruct (arun _ _ _ _) as [[[|s] T]|] eqn:EA; [injection H as _ <-; apply kept_refl | | discriminate].
  destruct (t <? length (pr_traj r))%nat; [|discriminate]. apply IH in H; [|intros; apply HT; right; auto]. eapply kept_trans; [|exact H]. apply kept_traj.
  - apply set_at_length.
  - intros _. apply set_at_other. apply HT. left. auto.
  - intros F. inversion F; subst. apply set_at_forall; auto. eapply arun_hom; eauto. split; reflexivity.
Qed.
Lemma kept_initialize eigs jacobi r c r' : solve_initialize jacobi r = Some (c, r') -> kept eigs r r'.
Proof.
  unfold solve_initialize. destruct (init_first (pr_planes r)) as [[ys l]|] eqn:E; [|discriminate]. intros H. apply (init_first_evolves eigs) in E.
  eapply kept_trans; [apply kept_planes; exact E|]. eapply kept_init_poses; [|exact H]. intros t I. apply in_seq in I. lia.
Qed.
Lemma kept_solve eigs inv jacobi m s r c r' : preg_solve eigs inv jacobi m s r = Some (c, r') ->
  exists e r0, get_current_error eigs r = Some (e, r0) /\ kept eigs r0 r'.
Proof.
  unfold preg_solve. destruct (get_current_error eigs r) as [[e r0]|] eqn:E; [|discriminate]. cbv zeta. intros H. exists e, r0. split; auto.
  eapply kept_trans; [apply kept_initial|].
  destruct m.
  - eapply kept_initialize; eauto.
  - cbn [option_map] in H; injection H as _ <-. apply kept_refl.
  - destruct (descend _ _ _ _ _ _) as [r2|] eqn:E2; [|discriminate]. cbn [option_map] in H; injection H as _ <-. eapply kept_descend; [|exact E2]. apply kept_nag.
  - destruct (descend _ _ _ _ _ _) as [r2|] eqn:E2; [|discriminate]. cbn [option_map] in H; injection H as _ <-. eapply kept_descend; [|exact E2]. apply kept_all_poses.
  - destruct (run_optimizer _ _ _ _ _) as [r2|] eqn:E2; [|discriminate]. cbn [option_map] in H; injection H as _ <-. eapply kept_optimizer; eauto.
  - cbn [option_map] in H; injection H as _ <-. apply kept_refl.
  - destruct (run_optimizer _ _ _ _ _) as [r2|] eqn:E2; [|discriminate]. cbn [option_map] in H; injection H as _ <-. eapply kept_optimizer; eauto.
  - destruct (run_optimizer _ _ _ _ _) as [r2|] eqn:E2; [|discriminate]. cbn [option_map] in H; injection H as _ <-. eapply kept_optimizer; eauto.
Qed.
