(** Proofs about print_evaluate. *)
Require Import Reals List Arith Lia Lra Psatz Bool.
From Verif Require Import Lin LinFacts SO3 SE3 SpecGeom SE3Alg Factors3DLn Sums Registration SpecRegistration RegistrationProofs ArunProofs Optimizer OptimizerProofs Planes SpecPlanes PlanesProofs PlanesMore SpecPlaneReg PlaneRegProofs PlaneRegMore PlaneRegSolve.
From Verif Require Import Evaluate.
Import ListNotations.
Local Open Scope R_scope.

(** ** The matrix the optimizer leaves *)
Section Left.
Context {X : Type} (P : problem X) (inv : nat -> (nat -> nat -> R) -> nat -> nat -> R) (I : X -> Prop).
Hypothesis IE : forall x x' e, I x -> calculate_error P x = Some (x', e) -> I x'.
Hypothesis IG : forall x x' q, I x -> calculate_gradient_hessian P x = Some (x', q) -> I x'.
Hypothesis IU : forall dx x x', I x -> update_state P dx x = Some x' -> I x'.
Hypothesis IB : forall x, I x -> I (bookkeep_state P x).
Hypothesis IR : forall x, I x -> I (update_state_from_bookkeep P x).
Definition left_by (m : method) (b : bool) (M : nat -> nat -> R) : Prop :=
  exists x x' n g H l, I x /\ calculate_gradient_hessian P x = Some (x', (n, g, H)) /\ M = damp m b l H /\ (b = true -> 0 < l).
Lemma left_iteration b o o' : I (o_x o) -> (b = true -> 0 < o_lambda o) -> one_iteration P inv b o = Some o' -> left_by (o_method o) b (o_hess o') /\ o_method o' = o_method o /\ o_lambda o' = o_lambda o /\ o_max o' = o_max o.
Proof.
  intros H L. unfold one_iteration. destruct (calculate_gradient_hessian P (o_x o)) as [[x1 [[n g] Hs]]|] eqn:E; [|discriminate].
  destruct (update_state P _ x1) as [x2|] eqn:U; [|discriminate]. intros Q. injection Q as <-. cbn. split; auto. exists (o_x o), x1, n, g, Hs, (o_lambda o). auto.
Qed.
Lemma left_nr m fuel : forall iters prev o o' k, I (o_x o) -> o_method o = m -> nr_loop P inv fuel iters prev o = Some (o', k) -> left_by m false (o_hess o').
Proof.
  induction fuel as [|fuel IH]; intros iters prev o o' k H EM E; [discriminate|]. cbn [nr_loop] in E.
  destruct (one_iteration P inv false o) as [o1|] eqn:E1; [|discriminate]. pose proof (oi_iteration P inv I IG IU false o o1 H E1) as H1.
  destruct (left_iteration false o o1 H ltac:(discriminate) E1) as (L1 & M1 & _).
  destruct (calculate_error P (o_x o1)) as [[x2 cur]|] eqn:E2; [|discriminate]. pose proof (IE _ _ _ H1 E2) as H2.
  destruct (andb _ _); [apply IH in E; auto; cbn; congruence | injection E as <- _; cbn; rewrite <- EM; auto].
Qed.
Lemma left_pass prev o o' prev' e : I (o_x o) -> 0 < o_lambda o -> lm_pass P inv prev o = Some (o', prev', e) -> left_by (o_method o) true (o_hess o') /\ o_method o' = o_method o /\ 0 < o_lambda o' /\ o_max o' = o_max o.
Proof.
  intros H L E. unfold lm_pass in E. destruct (one_iteration P inv true _) as [o1|] eqn:E1; [|discriminate].
  destruct (left_iteration true (with_x o (bookkeep_state P (o_x o))) o1 (IB _ H) (fun _ => L) E1) as (L1 & M1 & LA & MX). cbn in M1, LA, MX, L1.
  destruct (calculate_error P (o_x o1)) as [[x2 cur]|] eqn:E2; [|discriminate].
  destruct (decide _ _ _); injection E as <- _ _; cbn; (split; [exact L1|]); (split; [exact M1|]); (split; [|exact MX]); try lra.
  destruct prev as [p|]; [destruct cur as [c|]|]; try lra.
  destruct (new_lambda_cases (o_lambda o1) (p - c) (model_decrease (with_x o1 x2))) as [-> | [-> | ->]]; lra.
Qed.
Lemma left_lm m fuel : forall iters prev o o' k, I (o_x o) -> o_method o = m -> 0 < o_lambda o -> lm_steps P inv fuel iters prev o = Some (o', k) -> left_by m true (o_hess o').
Proof.
  induction fuel as [|fuel IH]; intros iters prev o o' k H EM L E; [discriminate|]. cbn [lm_steps] in E.
  destruct (lm_pass P inv prev o) as [[[o1 prev1] e]|] eqn:E1; [|discriminate]. pose proof (oi_pass P inv I IE IG IU IB IR _ _ _ _ _ H E1) as H1.
  destruct (left_pass _ _ _ _ _ H L E1) as (L1 & M1 & LA & _). rewrite EM in L1, M1.
  destruct e.
  - destruct (Nat.ltb _ _); [apply IH in E; auto|]. destruct (calculate_error P _) as [[x3 c]|] eqn:E2; [|discriminate]. injection E as <- _. exact L1.
  - injection E as <- _. auto.
  - destruct (Nat.ltb _ _); [apply IH in E; auto|]. destruct (calculate_error P _) as [[x3 c]|] eqn:E2; [|discriminate]. injection E as <- _. exact L1.
Qed.
Lemma left_solve m mx la o o' k : I (o_x o) -> 0 < la -> opt_solve P inv m mx la o = Some (o', k) ->
  left_by m (match m with NEWTON_RAPHSON => false | _ => true end) (o_hess o').
Proof.
  intros H L E. unfold opt_solve, opt_nr, opt_lm in E. destruct m; cbn [o_x o_max] in E; (destruct (calculate_error P (o_x o)) as [[x e]|] eqn:E1; [|discriminate]); apply IE in E1; auto.
  - eapply left_nr; [| |exact E]; auto.
  - eapply left_lm; [| | |exact E]; auto.
  - eapply left_lm; [| | |exact E]; auto.
Qed.
End Left.

Lemma plane_left eigs inv m mx r o k : opt_solve (plane_problem eigs) inv m mx (1 / 100) (opt_new r (1 / 10000) (1 / 100000)) = Some (o, k) ->
  left_by (plane_problem eigs) (kept eigs r) m (match m with NEWTON_RAPHSON => false | _ => true end) (o_hess o).
Proof.
  intros E. refine (left_solve (plane_problem eigs) inv (kept eigs r) _ _ _ _ _ m mx (1 / 100) _ o k _ _ E); cbn.
  - intros x x' e K C. eapply kept_trans; [exact K|]. unfold pr_calculate_error in C. destruct (get_current_error eigs x) as [[e1 r1]|] eqn:G; [|discriminate]. cbn in C. injection C as <- _. eapply kept_error; eauto.
  - intros x x' q K C. eapply kept_trans; [exact K|]. eapply kept_gh; eauto.
  - intros dx x x' K C. eapply kept_trans; [exact K|]. eapply kept_move; eauto.
  - intros x K. eapply kept_trans; [exact K|]. apply kept_book.
  - intros x K. eapply kept_trans; [exact K|]. apply kept_restore.
  - apply kept_refl.
  - lra.
Qed.

(** ** The Hessian is symmetric *)
Lemma gh_symmetric n ts : forall l g h l', gh_poses n ts l = Some (g, h, l') -> forall i j, h i j = h j i.
Proof.
  induction ts as [|t ts IH]; intros l g h l' E i j; cbn [gh_poses] in E; [injection E as _ <- _; reflexivity|].
  destruct (gh_planes t l) as [[[g1 h1] l1]|]; [|discriminate]. destruct (gh_poses n ts l1) as [[[gs hs] l2]|] eqn:E2; [|discriminate]. cbv zeta in E. injection E as _ <- _.
  rewrite (IH _ _ _ _ E2 i j). f_equal. f_equal. unfold upper_view. destruct (Nat.leb_spec i j), (Nat.leb_spec j i); auto; try lia. assert (i = j) by lia. subst. reflexivity.
Qed.
Lemma hessian_symmetric eigs r r' n g h : pr_gradient_hessian eigs r = Some (r', (n, g, h)) -> symmetric6 h.
Proof.
  unfold pr_gradient_hessian. destruct (get_current_error eigs r) as [[e r1]|]; [|discriminate]. destruct (gh_poses _ _ _) as [[[gs hs] l]|] eqn:E; [|discriminate].
  intros H. injection H as _ _ _ <-. intros i j _ _. eapply gh_symmetric; eauto.
Qed.
Lemma damp_symmetric m b l H : symmetric6 H -> symmetric6 (damp m b l H).
Proof.
  intros S i j Hi Hj. unfold damp. rewrite (Nat.eqb_sym j i). destruct (Nat.eqb_spec i j) as [-> | N]; [reflexivity|]. rewrite andb_false_r. auto.
Qed.
Lemma form_spherical H l u : form6 (damp LM_SPHER true l H) u = form6 H u + l * sumn 6 (fun i => u i * u i).
Proof. unfold form6, damp. cbn. ring. Qed.
Lemma smallest_spherical H l v : smallest6 (damp LM_SPHER true l H) v -> smallest6 H (v - l).
Proof.
  intros [(u & U & E) L]. split.
  - exists u. split; auto. rewrite form_spherical in E. unfold unit6 in U. rewrite U in E. lra.
  - intros w W. specialize (L w W). rewrite form_spherical in L. unfold unit6 in W. rewrite W in L. lra.
Qed.

(** ** Members that only solve and set_number_planes_and_poses write *)
Definition fr (r r' : preg) : Prop := pr_nplanes r' = pr_nplanes r /\ pr_initial r' = pr_initial r /\ pr_iters r' = pr_iters r.
Lemma fr_refl r : fr r r. Proof. repeat split. Qed.
Lemma fr_trans a b c : fr a b -> fr b c -> fr a c. Proof. intros (A & B & C) (D & E & F). repeat split; congruence. Qed.
Lemma fr_error eigs r e r' : get_current_error eigs r = Some (e, r') -> fr r r'.
Proof. unfold get_current_error. destruct (estimate_all _ _ _) as [[x l]|]; [|discriminate]. cbn. intros H. injection H as _ <-. repeat split. Qed.
Lemma fr_calc eigs r e r' : pr_calculate_error eigs r = Some (r', e) -> fr r r'.
Proof. unfold pr_calculate_error. destruct (get_current_error eigs r) as [[x r1]|] eqn:E; [|discriminate]. cbn. intros H. injection H as <- _. eapply fr_error; eauto. Qed.
Lemma fr_gh eigs r q r' : pr_gradient_hessian eigs r = Some (r', q) -> fr r r'.
Proof.
  unfold pr_gradient_hessian. destruct (get_current_error eigs r) as [[x r1]|] eqn:E; [|discriminate]. destruct (gh_poses _ _ _) as [[[g h] l]|]; [|discriminate].
  intros H. injection H as <- _. apply fr_error in E. exact E.
Qed.
Lemma fr_move dx r r' : move_last dx r = Some r' -> fr r r'.
Proof.
  unfold move_last. destruct (last_pose _); [|discriminate]. cbv zeta. destruct (interpolate_middle _ _ _); [|discriminate]. cbn. intros H. injection H as <-. repeat split.
Qed.
Lemma fr_restore eigs r : fr r (pr_restore eigs r).
Proof.
  unfold pr_restore. destruct (interpolate_middle _ _ _) as [tr'|]; [|apply fr_refl].
  destruct (get_current_error eigs (with_traj r tr')) as [[e r1]|] eqn:E; [|repeat split]. apply fr_error in E. exact E.
Qed.
Lemma fr_book eigs r : fr r (bookkeep_state (plane_problem eigs) r).
Proof. cbn. unfold pr_bookkeep_state. destruct (get_last_pose r); repeat split. Qed.
Lemma fr_opt eigs inv m mx la r o k : opt_solve (plane_problem eigs) inv m mx la (opt_new r (1 / 10000) (1 / 100000)) = Some (o, k) -> fr r (o_x o).
Proof.
  intros E. refine (oi_solve (plane_problem eigs) inv (fr r) _ _ _ _ _ m mx la _ o k _ E); cbn.
  - intros x x' e K C. eapply fr_trans; [exact K|]. eapply fr_calc; eauto.
  - intros x x' q K C. eapply fr_trans; [exact K|]. eapply fr_gh; eauto.
  - intros dx x x' K C. eapply fr_trans; [exact K|]. eapply fr_move; eauto.
  - intros x K. eapply fr_trans; [exact K|]. apply (fr_book eigs).
  - intros x K. eapply fr_trans; [exact K|]. apply fr_restore.
  - apply fr_refl.
Qed.
Lemma fr_all_poses eigs r e r' : all_poses_pass eigs r = Some (e, r') -> fr r r'.
Proof.
  unfold all_poses_pass. destruct (get_current_error eigs r) as [[e1 r1]|] eqn:E; [|discriminate]. apply fr_error in E.
  destruct (grad_poses _ _) as [[gs l]|]; [|discriminate]. cbv zeta. destruct (_ =? 0)%nat; [discriminate|]. destruct (move_poses _ _ _) as [tr|]; [|discriminate].
  intros H. injection H as _ <-. exact E.
Qed.
Lemma fr_nag eigs r e r' : nag_pass eigs r = Some (e, r') -> fr r r'.
Proof.
  unfold nag_pass. destruct (get_current_error eigs r) as [[e1 r1]|] eqn:E; [|discriminate]. apply fr_error in E.
  destruct (grad_poses _ _) as [[gs l]|]; [|discriminate]. destruct (existsb _ _); [discriminate|]. destruct (rev (pr_prev r1)) as [|v older]; [discriminate|].
  cbv zeta. destruct (move_last _ _) as [r2|] eqn:E3; [|discriminate]. intros H. injection H as _ <-. apply fr_move in E3. eapply fr_trans; [exact E | exact E3].
Qed.
Lemma fr_init_poses jacobi ys ts : forall r c r', init_poses jacobi ys ts r = Some (c, r') -> fr r r'.
Proof.
  induction ts as [|t ts IH]; intros r c r' H; cbn [init_poses] in H; [injection H as _ <-; apply fr_refl|].
  destruct (init_pairs _ _ _ _); [|discriminate]. destruct (arun _ _ _ _) as [[[|a] T]|]; [injection H as _ <-; apply fr_refl | | discriminate].
  destruct (_ <? _)%nat; [|discriminate]. apply IH in H. exact H.
Qed.
Lemma fr_initialize jacobi r c r' : solve_initialize jacobi r = Some (c, r') -> fr r r'.
Proof. unfold solve_initialize. destruct (init_first _) as [[ys l]|]; [|discriminate]. intros H. apply fr_init_poses in H. exact H. Qed.
(** nothing but the number of iterations *)
Definition fr2 (r r' : preg) : Prop := pr_nplanes r' = pr_nplanes r /\ pr_initial r' = pr_initial r.
Lemma fr_fr2 r r' : fr r r' -> fr2 r r'. Proof. intros (A & B & _). split; auto. Qed.
Lemma fr_descend pass single fuel iters prev r r' : (forall r e r', pass r = Some (e, r') -> fr r r') -> descend pass single fuel iters prev r = Some r' -> fr2 r r'.
Proof.
  intros HP E. refine (descend_inv (fr2 r) pass single _ _ fuel iters prev r r' _ E).
  - intros x e x' [A B] C. apply HP in C. destruct C as (C1 & C2 & _). split; congruence.
  - intros x n K. exact K.
  - split; reflexivity.
Qed.
Lemma solve_members eigs inv jacobi m s r c r' : preg_solve eigs inv jacobi m s r = Some (c, r') ->
  exists e r0, get_current_error eigs r = Some (e, r0) /\ pr_nplanes r' = pr_nplanes r /\ pr_initial r' = e /\
  match optimizer_of m with
  | Some om => exists o k, opt_solve (plane_problem eigs) inv om 100 (1 / 100) (opt_new (with_initial r0 e) (1 / 10000) (1 / 100000)) = Some (o, k) /\ pr_iters r' = k
  | None => match m with GRADIENT_BENGIOS_NAG | GRADIENT_ALL_POSES => True | _ => pr_iters r' = pr_iters r end
  end.
Proof.
  unfold preg_solve. destruct (get_current_error eigs r) as [[e r0]|] eqn:E; [|discriminate]. cbv zeta. intros H. exists e, r0. split; auto. apply fr_error in E. destruct E as (EN & EI & EK).
  assert (T2 : forall x, fr2 (with_initial r0 e) x -> pr_nplanes x = pr_nplanes r /\ pr_initial x = e) by (intros x (A & B); cbn in A, B; split; congruence).
  assert (T3 : forall x, fr (with_initial r0 e) x -> pr_nplanes x = pr_nplanes r /\ pr_initial x = e /\ pr_iters x = pr_iters r) by (intros x (A & B & C); cbn in A, B, C; repeat split; congruence).
  assert (OPT : forall om x, run_optimizer eigs inv om 100 (with_initial r0 e) = Some x -> pr_nplanes x = pr_nplanes r /\ pr_initial x = e /\
            exists o k, opt_solve (plane_problem eigs) inv om 100 (1 / 100) (opt_new (with_initial r0 e) (1 / 10000) (1 / 100000)) = Some (o, k) /\ pr_iters x = k).
  { intros om x. unfold run_optimizer. destruct (opt_solve _ _ _ _ _ _) as [[o k]|] eqn:E2; [|discriminate]. cbn [option_map]. intros G. injection G as <-. apply fr_opt in E2 as F. apply T3 in F. destruct F as (A & B & _).
    cbn. split; auto. split; auto. exists o, k. auto. }
  destruct m; cbn [optimizer_of].
  - apply fr_initialize in H. apply T3 in H. tauto.
  - cbn [option_map] in H; injection H as _ <-. cbn. auto.
  - destruct (descend _ _ _ _ _ _) as [r2|] eqn:E2; [|discriminate]. cbn [option_map] in H; injection H as _ <-. apply fr_descend in E2; [|apply fr_nag]. apply T2 in E2. tauto.
  - destruct (descend _ _ _ _ _ _) as [r2|] eqn:E2; [|discriminate]. cbn [option_map] in H; injection H as _ <-. apply fr_descend in E2; [|apply fr_all_poses]. apply T2 in E2. tauto.
  - destruct (run_optimizer _ _ _ _ _) as [r2|] eqn:E2; [|discriminate]. cbn [option_map] in H; injection H as _ <-. apply OPT in E2. exact E2.
  - cbn [option_map] in H; injection H as _ <-. cbn. auto.
  - destruct (run_optimizer _ _ _ _ _) as [r2|] eqn:E2; [|discriminate]. cbn [option_map] in H; injection H as _ <-. apply OPT in E2. exact E2.
  - destruct (run_optimizer _ _ _ _ _) as [r2|] eqn:E2; [|discriminate]. cbn [option_map] in H; injection H as _ <-. apply OPT in E2. exact E2.
Qed.

(** ** Programs *)
Lemma eval_snoc k e6 a o e e' : eval_run k e6 (a ++ [o]) e = Some e' -> exists q, eval_run k e6 a e = Some q /\ eval_step k e6 o q = Some e'.
Proof.
  revert e. induction a as [|x a IH]; intros e H; cbn [app eval_run] in *.
  - destruct (eval_step k e6 o e) eqn:E; [|discriminate]. injection H as <-. eauto.
  - destruct (eval_step k e6 x e); [eauto | discriminate].
Qed.
Lemma erase_snoc a o : erase (a ++ [o]) = erase a ++ match o with EOp o => [o] | EEvaluate _ => [RCount; RError] end.
Proof. unfold erase. rewrite flat_map_app. cbn. rewrite app_nil_r. reflexivity. Qed.
Lemma erase_ok ops : Forall eval_ok ops -> Forall reg_ok (erase ops).
Proof.
  induction 1 as [|o ops H F IH]; [constructor|]. unfold erase. cbn [flat_map]. apply Forall_app. split; [|exact IH]. destruct o; repeat constructor; auto.
Qed.
Record facts (k : kernels) (ops : list eval_op) (e : ereg) : Prop := {
  fa_run : reg_run k (erase ops) preg_new = Some (e_reg e);
  fa_declared : pr_nplanes (e_reg e) = declared ops;
  fa_mode : e_mode e = last_mode ops;
  fa_kept : e_kept e = None <-> evaluated ops = false;
  fa_hess : match optimizer_of (last_mode ops) with Some _ => e_hess e <> None | None => True end }.
Lemma hess_left_some eigs inv m r old c r' jacobi s : preg_solve eigs inv jacobi m s r = Some (c, r') -> optimizer_of m <> None -> hessian_left eigs inv m r old <> None.
Proof.
  intros H N. apply solve_members in H. destruct H as (e & r0 & E & _ & _ & O). unfold hessian_left. destruct (optimizer_of m) as [om|]; [|contradiction]. rewrite E.
  destruct O as (o & k & O & _). rewrite O. discriminate.
Qed.
Lemma step_members k o r r' : reg_step k o r = Some r' -> pr_nplanes r' = match o with RSet p _ => p | _ => pr_nplanes r end.
Proof.
  destruct o as [a b|i|i n pops|i t x| | | | T|m s]; cbn [reg_step]; intros H.
  - injection H as <-. reflexivity.
  - injection H as <-. reflexivity.
  - destruct (plane_run _ _ _); [|discriminate]. injection H as <-. reflexivity.
  - unfold plane_push_back_point in H. destruct (push_in _ _ _ _); [|discriminate]. cbn in H. injection H as <-. reflexivity.
  - destruct (get_current_error _ _) as [[e1 r1]|] eqn:E; [|discriminate]. injection H as <-. apply fr_error in E. apply E.
  - injection H as <-. reflexivity.
  - injection H as <-. reflexivity.
  - unfold set_last_pose in H. destruct (_ <=? _)%nat; [|destruct (_ <=? _)%nat; [|discriminate]]; injection H as <-; reflexivity.
  - destruct (preg_solve _ _ _ _ _ _) as [[c r1]|] eqn:E; [|discriminate]. injection H as <-. apply solve_members in E. destruct E as (e & r0 & _ & A & _). exact A.
Qed.
Lemma run_facts k e6 ops e : eval_run k e6 ops ereg_new = Some e -> facts k ops e.
Proof.
  revert e. induction ops as [|o ops IH] using rev_ind; intros e H.
  - injection H as <-. constructor; cbn; auto. tauto.
  - apply eval_snoc in H. destruct H as (q & H1 & H2). specialize (IH q H1). destruct IH as [A B C D E].
    unfold declared, last_mode, evaluated in *. constructor.
    + rewrite erase_snoc, reg_run_app, A. destruct o as [o|t]; cbn [eval_step] in H2.
      * destruct (reg_step k o (e_reg q)) as [r'|] eqn:S; [|discriminate]. cbn [option_map] in H2. cbn [reg_run]. rewrite S. destruct o; injection H2 as <-; reflexivity.
      * unfold print_evaluate in H2. cbv zeta in H2. cbn [reg_run reg_step]. destruct (get_current_error (k_eigs k) _) as [[err r2]|]; [|discriminate]. destruct (_ <=? _)%nat; [|discriminate].
        destruct (hessian_shown q); [|discriminate]. cbn in H2. injection H2 as <-. reflexivity.
    + unfold declared. rewrite fold_left_app. cbn [fold_left]. destruct o as [o|t]; cbn [eval_step] in H2.
      * destruct (reg_step k o (e_reg q)) as [r'|] eqn:S; [|discriminate]. cbn [option_map] in H2. apply step_members in S. destruct o; injection H2 as <-; cbn [e_reg]; rewrite S; auto.
      * unfold print_evaluate in H2. cbv zeta in H2. destruct (get_current_error (k_eigs k) _) as [[err r2]|] eqn:G; [|discriminate]. destruct (_ <=? _)%nat; [|discriminate].
        destruct (hessian_shown q); [|discriminate]. cbn in H2. injection H2 as <-. cbn [e_reg]. apply fr_error in G. destruct G as (G & _). rewrite G. exact B.
    + unfold last_mode. rewrite fold_left_app. cbn [fold_left]. destruct o as [o|t]; cbn [eval_step] in H2.
      * destruct (reg_step k o (e_reg q)) as [r'|] eqn:S; [|discriminate]. cbn [option_map] in H2. destruct o; injection H2 as <-; cbn [e_mode]; auto.
      * unfold print_evaluate in H2. cbv zeta in H2. destruct (get_current_error (k_eigs k) _) as [[err r2]|] eqn:G; [|discriminate]. destruct (_ <=? _)%nat; [|discriminate].
        destruct (hessian_shown q); [|discriminate]. cbn in H2. injection H2 as <-. exact C.
    + unfold evaluated. rewrite existsb_app. cbn [existsb]. destruct o as [o|t]; cbn [eval_step] in H2.
      * destruct (reg_step k o (e_reg q)) as [r'|] eqn:S; [|discriminate]. cbn [option_map] in H2. rewrite !orb_false_r. destruct o; injection H2 as <-; cbn [e_kept]; auto.
      * unfold print_evaluate in H2. cbv zeta in H2. destruct (get_current_error (k_eigs k) _) as [[err r2]|] eqn:G; [|discriminate]. destruct (_ <=? _)%nat; [|discriminate].
        destruct (hessian_shown q); [|discriminate]. cbn in H2. injection H2 as <-. cbn [e_kept]. rewrite orb_true_r. split; discriminate.
    + unfold last_mode. rewrite fold_left_app. cbn [fold_left]. destruct o as [o|t]; cbn [eval_step] in H2.
      * destruct (reg_step k o (e_reg q)) as [r'|] eqn:S; [|discriminate]. cbn [option_map] in H2. destruct o; injection H2 as <-; cbn [e_hess]; auto.
        cbn [reg_step] in S. destruct (preg_solve _ _ _ _ _ _) as [[c r1]|] eqn:PS; [|discriminate]. pose proof (hess_left_some _ _ _ _ (e_hess q) _ _ _ _ PS) as HL.
        destruct (optimizer_of mode); auto. apply HL. discriminate.
      * unfold print_evaluate in H2. cbv zeta in H2. destruct (get_current_error (k_eigs k) _) as [[err r2]|] eqn:G; [|discriminate]. destruct (_ <=? _)%nat; [|discriminate].
        destruct (hessian_shown q); [|discriminate]. cbn in H2. injection H2 as <-. exact E.
Qed.

(** ** The report *)
Lemma len2 {A B} (Q : A -> B -> Prop) l l' : Forall2 Q l l' -> length l = length l'.
Proof. induction 1; cbn; auto. Qed.
Lemma total_known k ops r : Forall reg_ok ops -> reg_run k ops preg_new = Some r ->
  fst (calculate_total_number_points r) = list_sum (map (fun q => count_pushed (fst (snd q)) (snd (snd q))) (planes_of ops)) /\ length (pr_planes r) = length (planes_of ops).
Proof.
  intros F E. destruct (af_tracked _ _ _ (after_run k ops r F E)) as [_ TK]. fold (planes_of ops) in TK. split; [exact (counted _ _ _ TK) | symmetry; eapply len2; eauto].
Qed.
Lemma count_history ops : history (ops ++ [RCount]) = history ops.
Proof. rewrite history_snoc. reflexivity. Qed.
Lemma shown_iff k ops e : facts k ops e -> hessian_shown e = None <-> (last_mode ops = INITIALIZE \/ last_mode ops = GN_CLAMPED_HESSIAN) /\ evaluated ops = false.
Proof.
  intros [_ _ M K H]. unfold hessian_shown. rewrite M. destruct (last_mode ops) eqn:L; cbn [optimizer_of] in H; rewrite <- K; split; try discriminate; try tauto; try (intros [[D|D] _]; discriminate).
Qed.
Lemma print_shape eigs e6 t e l e' : print_evaluate eigs e6 t e = Some (l, e') -> exists err r2 H,
  get_current_error eigs (snd (calculate_total_number_points (e_reg e))) = Some (err, r2) /\ hessian_shown e = Some H /\ (length (pr_planes r2) <= pr_nplanes r2)%nat /\
  l = [INR (pr_nplanes (e_reg e)); INR (pr_nposes (e_reg e)); INR (fst (calculate_total_number_points (e_reg e))); INR (pr_iters (e_reg e)); t; pr_initial (e_reg e); err] ++ map (e6 H) (seq 0 6) /\
  e' = mkE r2 (e_mode e) (e_hess e) (Some H).
Proof.
  unfold print_evaluate. cbv zeta. destruct (get_current_error eigs _) as [[err r2]|] eqn:E; [|discriminate]. destruct (Nat.leb_spec (length (pr_planes r2)) (pr_nplanes r2)); [|discriminate].
  destruct (hessian_shown e) as [H0|] eqn:EH; [|discriminate]. cbn [option_map]. intros Q. injection Q as <- <-. exists err, r2, H0. auto.
Qed.
Lemma error_planes eigs r e r' : get_current_error eigs r = Some (e, r') -> length (pr_planes r') = length (pr_planes r).
Proof.
  intros H. pose proof (kept_error _ _ _ _ H) as ([_ KE _ _ _] & _). symmetry. eapply len2; eauto.
Qed.

(** ** Members across calls that do not solve *)
Lemma step_unsolved k e6 o e e' : unsolved o -> eval_step k e6 o e = Some e' -> pr_initial (e_reg e') = pr_initial (e_reg e) /\ pr_iters (e_reg e') = pr_iters (e_reg e) /\ e_mode e' = e_mode e /\ e_hess e' = e_hess e.
Proof.
  intros U H. destruct o as [o|t]; cbn [eval_step] in H.
  - destruct (reg_step k o (e_reg e)) as [r'|] eqn:S; [|discriminate]. cbn [option_map] in H.
    assert (A : pr_initial r' = pr_initial (e_reg e) /\ pr_iters r' = pr_iters (e_reg e)).
    { destruct o as [a b|i|i n pops|i t x| | | | T|m s]; cbn [reg_step] in S; try contradiction.
      - injection S as <-. auto.
      - injection S as <-. auto.
      - destruct (plane_run _ _ _); [|discriminate]. injection S as <-. auto.
      - unfold plane_push_back_point in S. destruct (push_in _ _ _ _); [|discriminate]. cbn in S. injection S as <-. auto.
      - destruct (get_current_error _ _) as [[e1 r1]|] eqn:E; [|discriminate]. injection S as <-. apply fr_error in E. destruct E as (_ & A & B). auto.
      - injection S as <-. auto.
      - injection S as <-. auto.
      - unfold set_last_pose in S. destruct (_ <=? _)%nat; [|destruct (_ <=? _)%nat; [|discriminate]]; injection S as <-; auto. }
    destruct o; try contradiction; injection H as <-; cbn; tauto.
  - destruct (print_evaluate _ _ _ _) as [[l e2]|] eqn:P; [|discriminate]. cbn in H. injection H as <-. apply print_shape in P. destruct P as (err & r2 & H & G & _ & _ & _ & ->). apply fr_error in G. destruct G as (_ & A & B). cbn in *. auto.
Qed.
Lemma run_unsolved k e6 b : Forall unsolved b -> forall e e', eval_run k e6 b e = Some e' -> pr_initial (e_reg e') = pr_initial (e_reg e) /\ pr_iters (e_reg e') = pr_iters (e_reg e) /\ e_mode e' = e_mode e /\ e_hess e' = e_hess e.
Proof.
  induction 1 as [|o b U F IH]; intros e e' H; cbn [eval_run] in H; [injection H as <-; auto|]. destruct (eval_step k e6 o e) as [e1|] eqn:E; [|discriminate].
  apply step_unsolved in E; auto. apply IH in H. destruct E as (-> & -> & -> & ->) in H. exact H.
Qed.
Lemma eval_split k e6 a b e e' : eval_run k e6 (a ++ b) e = Some e' -> exists q, eval_run k e6 a e = Some q /\ eval_run k e6 b q = Some e'.
Proof.
  revert e. induction a as [|x a IH]; intros e H; cbn [app eval_run] in *; [eauto|]. destruct (eval_step k e6 x e); [eauto | discriminate].
Qed.
Lemma mode_unsolved b : Forall unsolved b -> forall m, fold_left (fun m o => match o with EOp (RSolve m' _) => m' | _ => m end) b m = m.
Proof. induction 1 as [|o b U F IH]; intros m; cbn [fold_left]; auto. destruct o as [[]|]; try contradiction; auto. Qed.
Lemma descend_iters pass single : forall fuel iters prev r r', descend pass single fuel iters prev r = Some r' -> (iters <= pr_iters r' <= iters + fuel)%nat /\ ((0 < fuel)%nat -> (iters < pr_iters r')%nat) /\ (single = true -> (0 < fuel)%nat -> pr_iters r' = S iters).
Proof.
  induction fuel as [|fuel IH]; intros iters prev r r' H; cbn [descend] in H.
  - injection H as <-. cbn. repeat split; lia.
  - destruct (pass r) as [[e r1]|]; [|discriminate]. destruct (Rltb _ _ && negb single) eqn:C.
    + apply IH in H. apply andb_prop in C. destruct C as [_ C]. apply negb_true_iff in C. repeat split; try lia. congruence.
    + injection H as <-. cbn. repeat split; lia.
Qed.
Lemma solve_iterations eigs inv jacobi m s r c r' : preg_solve eigs inv jacobi m s r = Some (c, r') ->
  match m with
  | GN_HESSIAN | MODE_LM_SPHER | MODE_LM_ELLIP => (1 <= pr_iters r' <= 100)%nat
  | GRADIENT_BENGIOS_NAG => (1 <= pr_iters r' <= ten_thousand)%nat /\ (s = true -> pr_iters r' = 1%nat)
  | GRADIENT_ALL_POSES => (1 <= pr_iters r' <= ten_thousand)%nat
  | INITIALIZE | GRADIENT | GN_CLAMPED_HESSIAN => pr_iters r' = pr_iters r
  end.
Proof.
  intros H. pose proof (solve_members _ _ _ _ _ _ _ _ H) as (e & r0 & E & _ & _ & O).
  assert (TT : (0 < ten_thousand)%nat) by (unfold ten_thousand; lia).
  destruct m; cbn [optimizer_of] in O; auto.
  - unfold preg_solve in H. rewrite E in H. cbv zeta in H. destruct (descend _ _ _ _ _ _) as [r2|] eqn:D; [|discriminate]. cbn [option_map] in H. injection H as _ <-. apply descend_iters in D. destruct D as (A & B & C). specialize (B TT). split; [lia | intros ->; auto].
  - unfold preg_solve in H. rewrite E in H. cbv zeta in H. destruct (descend _ _ _ _ _ _) as [r2|] eqn:D; [|discriminate]. cbn [option_map] in H. injection H as _ <-. apply descend_iters in D. destruct D as (A & B & C). specialize (B TT). lia.
  - destruct O as (o & k & O & ->). unfold opt_solve, opt_nr in O. cbn [o_x] in O. destruct (calculate_error _ _) as [[x e1]|]; [|discriminate]. apply nr_count in O. cbn [o_max with_x] in O. lia.
  - destruct O as (o & k & O & ->). unfold opt_solve, opt_lm in O. cbn [o_x] in O. destruct (calculate_error _ _) as [[x e1]|]; [|discriminate]. apply lm_count in O. cbn [o_max with_x] in O. lia.
  - destruct O as (o & k & O & ->). unfold opt_solve, opt_lm in O. cbn [o_x] in O. destruct (calculate_error _ _) as [[x e1]|]; [|discriminate]. apply lm_count in O. cbn [o_max with_x] in O. lia.
Qed.
(** calls between reports keep the matrix shown *)
Lemma run_unreported k e6 b : Forall unreported b -> forall e e', eval_run k e6 b e = Some e' -> e_kept e' = e_kept e.
Proof.
  induction 1 as [|o b U F IH]; intros e e' H; cbn [eval_run] in H; [injection H as <-; auto|]. destruct (eval_step k e6 o e) as [e1|] eqn:E; [|discriminate].
  apply IH in H. rewrite H. destruct o as [o|]; [|contradiction]. cbn [eval_step] in E. destruct (reg_step k o (e_reg e)); [|discriminate]. cbn in E. destruct o; injection E as <-; reflexivity.
Qed.
Lemma calcS_points b p p' : calculate_all_matrices_S b p = Some p' -> pl_points p' = pl_points p /\ pl_number p' = pl_number p.
Proof.
  unfold calculate_all_matrices_S. cbv zeta. destruct (if b then [] else pl_S p); [destruct (all_some _); [|discriminate]|]; intros H; injection H as <-; auto.
Qed.
Lemma calcQ_points tr p p' : calculate_all_matrices_Q tr p = Some p' -> pl_points p' = pl_points p /\ pl_number p' = pl_number p.
Proof. unfold calculate_all_matrices_Q. cbv zeta. destruct (all_some _); [|discriminate]. intros H; injection H as <-; auto. Qed.
Lemma quiet_points eigs o p p' : quiet o -> plane_step eigs o p = Some p' -> pl_points p' = pl_points p /\ pl_number p' = pl_number p.
Proof.
  destruct o as [x t|b|tr|tr t|t| |]; try contradiction; cbn [quiet plane_step]; intros Q.
  - apply calcS_points.
  - unfold estimate_plane. destruct (calculate_all_matrices_S false p) as [p1|] eqn:E1; [|discriminate]. destruct (calculate_all_matrices_Q tr p1) as [p2|] eqn:E2; [|discriminate].
    cbn. intros H. injection H as <-. cbn. apply calcS_points in E1. apply calcQ_points in E2. destruct E1, E2. split; congruence.
  - unfold calculate_gradient. destruct (nth_error _ _); [|discriminate]. destruct (pl_est p); [|discriminate]. cbn. intros H. injection H as <-. auto.
Qed.
Lemma quiet_run_points eigs ext : Forall quiet ext -> forall p p', plane_run eigs ext p = Some p' -> pl_points p' = pl_points p /\ pl_number p' = pl_number p.
Proof.
  induction 1 as [|o ext Q F IH]; intros p p' E; cbn [plane_run] in E; [injection E as <-; auto|]. destruct (plane_step eigs o p) as [p1|] eqn:E1; [|discriminate].
  apply quiet_points in E1; auto. apply IH in E. destruct E, E1. split; congruence.
Qed.
Lemma kept_points eigs r r' : kept eigs r r' -> same_points r r'.
Proof.
  intros K. pose proof (k_ev _ _ _ K) as EV. unfold same_points, evolves in *. induction EV as [|q q' l l' (A & ext & F & E) EV IH]; [reflexivity|]. cbn [map]. f_equal; [|exact IH].
  f_equal; [congruence | eapply quiet_run_points; eauto].
Qed.
Lemma kept_total eigs r r' : kept eigs r r' -> fst (calculate_total_number_points r') = fst (calculate_total_number_points r).
Proof.
  intros K. pose proof (k_ev _ _ _ K) as EV. unfold evolves in *. cbn. unfold total_points. generalize 0%nat. induction EV as [|q q' l l' (A & ext & F & E) EV IH]; intros n; [reflexivity|]. cbn [fold_left].
  rewrite IH. f_equal. f_equal. unfold get_total_number_points. eapply quiet_run_points; eauto.
Qed.
Lemma eval_join k e6 a o e q e' : eval_run k e6 a e = Some q -> eval_step k e6 o q = Some e' -> eval_run k e6 (a ++ [o]) e = Some e'.
Proof.
  revert e. induction a as [|x a IH]; intros e H S; cbn [app eval_run] in *; [injection H as ->; rewrite S; reflexivity|]. destruct (eval_step k e6 x e); [eauto | discriminate].
Qed.
(** a second report *)
Lemma report_twice eigs e6 t e l e' : (forall err r', get_current_error eigs (snd (calculate_total_number_points (e_reg e))) = Some (err, r') -> exists r'', get_current_error eigs r' = Some (err, r'')) ->
  print_evaluate eigs e6 t e = Some (l, e') -> exists e'', print_evaluate eigs e6 t e' = Some (l, e'').
Proof.
  intros HE P. apply print_shape in P. destruct P as (err & r2 & H & G & S & L & -> & ->). destruct (HE _ _ G) as (r3 & G3). pose proof (fr_error _ _ _ _ G) as (FN & FI & FK).
  pose proof (kept_error _ _ _ _ G) as (K & _). pose proof (kept_total _ _ _ K) as KT. pose proof (k_n _ _ _ K) as KN. cbn in KN, FN, FI, FK.
  unfold print_evaluate. cbv zeta. cbn [e_reg].
  assert (X : exists r4, get_current_error eigs (snd (calculate_total_number_points r2)) = Some (err, r4) /\ length (pr_planes r4) = length (pr_planes r2) /\ pr_nplanes r4 = pr_nplanes r2).
  { pose proof (error_planes _ _ _ _ G3) as L3. pose proof (fr_error _ _ _ _ G3) as (F3 & _). unfold get_current_error in *. change (pr_traj (snd (calculate_total_number_points r2))) with (pr_traj r2). change (pr_planes (snd (calculate_total_number_points r2))) with (pr_planes r2).
    destruct (estimate_all eigs (pr_traj r2) (pr_planes r2)) as [[x q]|]; [|discriminate]. cbn in *. injection G3 as -> <-. cbn in *. eexists. split; [reflexivity|]. auto. }
  destruct X as (r4 & -> & L4 & N4). rewrite L4, N4. replace (length (pr_planes r2) <=? pr_nplanes r2)%nat with true by (symmetry; apply Nat.leb_le; exact L).
  assert (HS : hessian_shown (mkE r2 (e_mode e) (e_hess e) (Some H)) = Some H).
  { unfold hessian_shown in *. cbn [e_mode e_hess e_kept]. destruct (e_mode e); auto. }
  rewrite HS. cbn [option_map]. eexists. f_equal. f_equal. f_equal. 
  change (pr_nplanes (snd (calculate_total_number_points r2))) with (pr_nplanes r2). change (pr_nposes (snd (calculate_total_number_points r2))) with (pr_nposes r2). change (pr_iters (snd (calculate_total_number_points r2))) with (pr_iters r2).
  change (pr_initial (snd (calculate_total_number_points r2))) with (pr_initial r2). change (pr_npoints (snd (calculate_total_number_points r2))) with (fst (calculate_total_number_points r2)).
  rewrite FN, FI, FK, KN, KT. reflexivity.
Qed.
(** programs without reports *)
Lemma run_lift k e6 ops : forall e r', reg_run k ops (e_reg e) = Some r' -> exists e', eval_run k e6 (map EOp ops) e = Some e' /\ e_reg e' = r'.
Proof.
  induction ops as [|o ops IH]; intros e r' H; cbn [map eval_run reg_run] in *; [injection H as <-; eauto|]. cbn [eval_step]. destruct (reg_step k o (e_reg e)) as [r1|] eqn:S; [|discriminate]. cbn [option_map].
  destruct o; apply IH; exact H.
Qed.
Lemma erase_lift ops : erase (map EOp ops) = ops.
Proof. induction ops as [|o ops IH]; [reflexivity|]. unfold erase in *. cbn [map flat_map app]. rewrite IH. reflexivity. Qed.
Lemma lift_ok ops : Forall reg_ok ops -> Forall eval_ok (map EOp ops).
Proof. induction 1; constructor; auto. Qed.
