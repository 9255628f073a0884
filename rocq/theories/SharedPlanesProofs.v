(** Proofs about registrations that share planes. *)
Require Import Reals List Arith Lia Lra Bool.
From Verif Require Import Lin LinFacts SO3 SE3 Sums Registration Optimizer Planes SpecPlanes PlanesProofs SpecPlaneReg PlaneRegProofs CreatePoints SharedPlanes.
Import ListNotations.
Local Open Scope R_scope.

(** ** With the identity, the definitions of Planes.v *)
Lemma own_error eigs r : sh_current_error (fun tr => tr) eigs r = get_current_error eigs r.
Proof. reflexivity. Qed.
Lemma own_solve eigs inv jacobi m s r : sh_solve (fun tr => tr) eigs inv jacobi m s r = preg_solve eigs inv jacobi m s r.
Proof. reflexivity. Qed.

(** ** Planes evolve *)
Section Ev.
Context (sel : list M4 -> list M4) (eigs : M4 -> eigen4).
Definition ev (r r' : preg) : Prop := evolves eigs (pr_planes r) (pr_planes r').
Lemma ev_refl r : ev r r.
Proof. apply evolves_refl. Qed.
Lemma ev_trans a b c : ev a b -> ev b c -> ev a c.
Proof. apply evolves_trans. Qed.
Lemma kept_ev r r' : kept eigs r r' -> ev r r'.
Proof. intros [_ H _ _ _]. exact H. Qed.
Lemma ev_error r e r' : sh_current_error sel eigs r = Some (e, r') -> ev r r'.
Proof.
  unfold sh_current_error. destruct (estimate_all _ _ _) as [[e1 l]|] eqn:E; [|discriminate]. intros H. injection H as _ <-. eapply estimate_all_evolves; eauto.
Qed.
Lemma ev_calc r r' e : sh_calculate_error sel eigs r = Some (r', e) -> ev r r'.
Proof.
  unfold sh_calculate_error. destruct (sh_current_error sel eigs r) as [[e1 r1]|] eqn:E; [|discriminate]. intros H. injection H as <- _. eapply ev_error; eauto.
Qed.
Lemma ev_gh r r' q : sh_gradient_hessian sel eigs r = Some (r', q) -> ev r r'.
Proof.
  unfold sh_gradient_hessian. destruct (sh_current_error sel eigs r) as [[e1 r1]|] eqn:E; [|discriminate]. apply ev_error in E.
  destruct (gh_poses _ _ _) as [[[g h] l]|] eqn:E2; [|discriminate]. intros H. injection H as <- _. eapply ev_trans; [exact E|]. red. cbn. eapply gh_poses_evolves; eauto.
Qed.
Lemma ev_restore r : ev r (sh_restore sel eigs r).
Proof.
  unfold sh_restore. destruct (interpolate_middle _ _ _) as [tr'|]; [|apply ev_refl].
  destruct (sh_current_error sel eigs (with_traj r tr')) as [[e r1]|] eqn:E; [|exact (ev_refl r)]. apply ev_error in E. exact E.
Qed.
Lemma ev_optimizer inv m mx r r' : sh_run_optimizer sel eigs inv m mx r = Some r' -> ev r r'.
Proof.
  unfold sh_run_optimizer. destruct (opt_solve _ _ _ _ _ _) as [[o k]|] eqn:E; [|discriminate]. intros H. injection H as <-.
  change (ev r (o_x o)). refine (oi_solve (sh_problem sel eigs) inv (ev r) _ _ _ _ _ m mx (1/100) _ o k _ E); cbn.
  - intros x x' e K C. eapply ev_trans; [exact K|]. eapply ev_calc; eauto.
  - intros x x' q K C. eapply ev_trans; [exact K|]. eapply ev_gh; eauto.
  - intros dx x x' K C. eapply ev_trans; [exact K|]. apply kept_ev. eapply kept_move; eauto.
  - intros x K. eapply ev_trans; [exact K|]. apply kept_ev. apply kept_book.
  - intros x K. eapply ev_trans; [exact K|]. apply ev_restore.
  - apply ev_refl.
Qed.
Lemma ev_all_poses r e r' : sh_all_poses_pass sel eigs r = Some (e, r') -> ev r r'.
Proof.
  unfold sh_all_poses_pass. destruct (sh_current_error sel eigs r) as [[e1 r1]|] eqn:E; [|discriminate]. apply ev_error in E.
  destruct (grad_poses _ _) as [[gs l]|] eqn:E2; [|discriminate]. cbv zeta. destruct (_ =? 0)%nat; [discriminate|]. destruct (move_poses _ _ _) as [tr|]; [|discriminate].
  intros H. injection H as _ <-. apply (grad_poses_evolves eigs) in E2. eapply ev_trans; [exact E|]. apply E2.
Qed.
Lemma ev_nag r e r' : sh_nag_pass sel eigs r = Some (e, r') -> ev r r'.
Proof.
  unfold sh_nag_pass. destruct (sh_current_error sel eigs r) as [[e1 r1]|] eqn:E; [|discriminate]. apply ev_error in E.
  destruct (grad_poses _ _) as [[gs l]|] eqn:E2; [|discriminate]. destruct (existsb _ _); [discriminate|]. destruct (rev (pr_prev r1)) as [|v older]; [discriminate|].
  cbv zeta. destruct (move_last _ _) as [r2|] eqn:E3; [|discriminate]. intros H. injection H as _ <-. apply (grad_poses_evolves eigs) in E2. destruct E2 as [E2 _].
  eapply ev_trans; [exact E|]. apply (kept_move eigs) in E3. apply kept_ev in E3. eapply evolves_trans; [exact E2 | exact E3].
Qed.
Lemma ev_descend pass single fuel iters prev r r' : (forall r e r', pass r = Some (e, r') -> ev r r') ->
  descend pass single fuel iters prev r = Some r' -> ev r r'.
Proof.
  intros HP E. refine (descend_inv (ev r) pass single _ _ fuel iters prev r r' (ev_refl r) E).
  - intros x e x' K C. eapply ev_trans; [exact K | eapply HP; eauto].
  - intros x n K. exact K.
Qed.
Lemma ev_solve inv jacobi m s r c r' : sh_solve sel eigs inv jacobi m s r = Some (c, r') -> ev r r'.
Proof.
  unfold sh_solve. destruct (sh_current_error sel eigs r) as [[e r0]|] eqn:E; [|discriminate]. apply ev_error in E. cbv zeta. intros H.
  assert (T : forall a, ev (with_initial r0 e) a -> ev r a) by (intros a A; eapply ev_trans; [exact E | exact A]). apply T. clear E T.
  destruct m.
  - apply kept_ev. eapply kept_initialize; eauto.
  - cbn [option_map] in H; injection H as _ <-. apply ev_refl.
  - destruct (descend _ _ _ _ _ _) as [r2|] eqn:E2; [|discriminate]. cbn [option_map] in H; injection H as _ <-. eapply ev_descend; [|exact E2]. apply ev_nag.
  - destruct (descend _ _ _ _ _ _) as [r2|] eqn:E2; [|discriminate]. cbn [option_map] in H; injection H as _ <-. eapply ev_descend; [|exact E2]. apply ev_all_poses.
  - destruct (sh_run_optimizer _ _ _ _ _ _) as [r2|] eqn:E2; [|discriminate]. cbn [option_map] in H; injection H as _ <-. eapply ev_optimizer; eauto.
  - cbn [option_map] in H; injection H as _ <-. apply ev_refl.
  - destruct (sh_run_optimizer _ _ _ _ _ _) as [r2|] eqn:E2; [|discriminate]. cbn [option_map] in H; injection H as _ <-. eapply ev_optimizer; eauto.
  - destruct (sh_run_optimizer _ _ _ _ _ _) as [r2|] eqn:E2; [|discriminate]. cbn [option_map] in H; injection H as _ <-. eapply ev_optimizer; eauto.
Qed.
Definition no_push (c : call) : Prop := match c with CPush _ _ _ => False | _ => True end.
Lemma ev_call inv jacobi c r a r' : no_push c -> do_call sel eigs inv jacobi c r = Some (a, r') -> ev r r'.
Proof.
  intros N. destruct c; cbn [do_call].
  - destruct (sh_current_error sel eigs r) as [[e r1]|] eqn:E; [|discriminate]. intros H. injection H as _ <-. eapply ev_error; eauto.
  - destruct (sh_solve _ _ _ _ _ _ r) as [[e r1]|] eqn:E; [|discriminate]. intros H. injection H as _ <-. eapply ev_solve; eauto.
  - destruct (get_trajectory t r); [|discriminate]. intros H. injection H as _ <-. apply ev_refl.
  - unfold set_last_pose. destruct (_ <=? _)%nat; [|destruct (_ <=? _)%nat; [|discriminate]]; intros H; injection H as _ <-; exact (ev_refl r).
  - intros H. injection H as _ <-. exact (ev_refl r).
  - intros H. injection H as _ <-. exact (ev_refl r).
  - destruct N.
Qed.
End Ev.

(** ** Caches do not matter *)
Definition orel {A B} (R : A -> B -> Prop) (a : option A) (b : option B) : Prop :=
  match a, b with Some x, Some y => R x y | None, None => True | _, _ => False end.
Definition with_gradQ (p : plane) (g : list M4) : plane :=
  mkPlane (pl_len p) (pl_est p) (pl_lambda p) (pl_points p) (pl_number p) (pl_S p) (pl_Q p) (pl_acc p) g.
(** equal but for gradQ_ *)
Definition simP (p q : plane) : Prop := exists g, q = with_gradQ p g.
Definition simL : list (nat * plane) -> list (nat * plane) -> Prop := Forall2 (fun a b => fst a = fst b /\ simP (snd a) (snd b)).
Definition simR (r r' : preg) : Prop := exists l, r' = with_planes r l /\ simL (pr_planes r) l.
(** the matrices of the points *)
Definition points_S (p : plane) : option (list M4) := all_some (map (fun t => option_map matrix_S (nth_error (pl_points p) t)) (seq 0 (pl_len p))).
Definition okS (p : plane) : Prop := pl_S p = [] \/ points_S p = Some (pl_S p).
(** same points, matrices computed from them or not at all *)
Definition baseP (p q : plane) : Prop := pl_len p = pl_len q /\ pl_points p = pl_points q /\ pl_number p = pl_number q /\ okS p /\ okS q.
Definition baseL : list (nat * plane) -> list (nat * plane) -> Prop := Forall2 (fun a b => fst a = fst b /\ baseP (snd a) (snd b)).
Lemma simP_refl p : simP p p.
Proof. exists (pl_gradQ p). destruct p; reflexivity. Qed.
Lemma simL_refl l : simL l l.
Proof. induction l; constructor; auto. split; auto. apply simP_refl. Qed.
Lemma calcS_ok p : okS p -> calculate_all_matrices_S false p =
  option_map (fun S => mkPlane (pl_len p) (pl_est p) (pl_lambda p) (pl_points p) (pl_number p) S (pl_Q p) (pl_acc p) (pl_gradQ p)) (points_S p).
Proof.
  intros [E | E]; unfold calculate_all_matrices_S, points_S in *.
  - rewrite E. destruct (all_some _); reflexivity.
  - rewrite E. cbn [option_map]. destruct (pl_S p) as [|s l] eqn:ES.
    + destruct (all_some _); [injection E as ->|discriminate]. reflexivity.
    + destruct p; cbn in *; subst; reflexivity.
Qed.
Lemma quiet_base eigs o p q : quiet o -> okS p -> plane_step eigs o p = Some q -> baseP p q.
Proof.
  intros Q O. assert (B : forall S, points_S p = Some S -> forall e la Qs acc g, baseP p (mkPlane (pl_len p) e la (pl_points p) (pl_number p) S Qs acc g)).
  { intros S HS e la Qs acc g. repeat split; auto. right. exact HS. }
  destruct o; cbn [plane_step]; try contradiction.
  - destruct reset; [contradiction|]. rewrite calcS_ok by auto. destruct (points_S p) as [S|] eqn:E; [|discriminate]. intros H. injection H as <-. apply B. auto.
  - unfold estimate_plane. rewrite calcS_ok by auto. destruct (points_S p) as [S|] eqn:E; [|discriminate]. cbn [option_map]. unfold calculate_all_matrices_Q. cbn [pl_S pl_len].
    destruct (all_some _); [|discriminate]. intros H. injection H as <-. cbn. apply B. auto.
  - unfold calculate_gradient. destruct (nth_error (pl_Q p) t); [|discriminate]. destruct (pl_est p); [|discriminate]. intros H. injection H as <-. repeat split; auto.
Qed.
Lemma base_refl p : okS p -> baseP p p.
Proof. repeat split; auto. Qed.
Lemma base_trans p q r : baseP p q -> baseP q r -> baseP p r.
Proof. intros (A1 & A2 & A3 & A4 & A5) (B1 & B2 & B3 & B4 & B5). repeat split; auto; congruence. Qed.
Lemma base_sym p q : baseP p q -> baseP q p.
Proof. intros (A1 & A2 & A3 & A4 & A5). repeat split; auto. Qed.
Lemma run_base eigs ops : forall p q, Forall quiet ops -> okS p -> plane_run eigs ops p = Some q -> baseP p q.
Proof.
  induction ops as [|o ops IH]; intros p q F O H; cbn in H; [injection H as <-; apply base_refl; auto|].
  inversion F; subst. destruct (plane_step eigs o p) as [p1|] eqn:E; [|discriminate]. apply quiet_base in E; auto. eapply base_trans; [exact E|]. apply IH; auto. apply E.
Qed.
Lemma evolves_base eigs l l1 l2 : Forall (fun q => okS (snd q)) l -> evolves eigs l l1 -> evolves eigs l l2 -> baseL l1 l2.
Proof.
  intros F H. revert l2. induction H as [|x y a b (E & e1 & F1 & R1) H IH]; intros c G; inversion G as [|? z ? c' (E2 & e2 & F2 & R2) G']; subst; constructor.
  - inversion F; subst. split; [congruence|]. apply run_base in R1; auto. apply run_base in R2; auto. eapply base_trans; [apply base_sym|]; eauto.
  - inversion F; subst. apply IH; auto.
Qed.
Lemma estimate_sim eigs tr p q : baseP p q -> orel (fun a b => fst a = fst b /\ simP (snd a) (snd b)) (estimate_plane eigs tr p) (estimate_plane eigs tr q).
Proof.
  intros (A1 & A2 & A3 & A4 & A5). unfold estimate_plane. rewrite !calcS_ok by auto. assert (E : points_S p = points_S q) by (unfold points_S; rewrite A1, A2; auto). rewrite <- E.
  destruct (points_S p) as [S|]; cbn [option_map]; [|exact I]. unfold calculate_all_matrices_Q. cbn [pl_S pl_len]. rewrite <- A1. destruct (all_some _) as [Q|]; [|exact I]. cbn.
  split; auto. exists (pl_gradQ q). unfold with_gradQ. cbn. rewrite <- A2, <- A3. auto.
Qed.
Lemma estimate_sim' eigs tr p q : simP p q -> orel (fun a b => fst a = fst b /\ simP (snd a) (snd b)) (estimate_plane eigs tr p) (estimate_plane eigs tr q).
Proof.
  intros (g & ->). unfold estimate_plane, calculate_all_matrices_S. cbn [with_gradQ pl_S pl_len pl_points pl_est pl_lambda pl_number pl_Q pl_acc pl_gradQ].
  assert (H : forall p1 p2, simP p1 p2 -> orel (fun a b => fst a = fst b /\ simP (snd a) (snd b))
    (match calculate_all_matrices_Q tr p1 with None => None | Some p3 => Some (e4_val (eigs (fold_left m4add (pl_Q p3) m4zero)), mkPlane (pl_len p3) (Some (e4_vec (eigs (fold_left m4add (pl_Q p3) m4zero)))) (e4_val (eigs (fold_left m4add (pl_Q p3) m4zero))) (pl_points p3) (pl_number p3) (pl_S p3) (pl_Q p3) (Some (fold_left m4add (pl_Q p3) m4zero)) (pl_gradQ p3)) end)
    (match calculate_all_matrices_Q tr p2 with None => None | Some p3 => Some (e4_val (eigs (fold_left m4add (pl_Q p3) m4zero)), mkPlane (pl_len p3) (Some (e4_vec (eigs (fold_left m4add (pl_Q p3) m4zero)))) (e4_val (eigs (fold_left m4add (pl_Q p3) m4zero))) (pl_points p3) (pl_number p3) (pl_S p3) (pl_Q p3) (Some (fold_left m4add (pl_Q p3) m4zero)) (pl_gradQ p3)) end)).
  { intros p1 p2 (h & ->). unfold calculate_all_matrices_Q. cbn [with_gradQ pl_S pl_len]. destruct (all_some _) as [Q|]; [|exact I]. cbn. split; auto. exists h. reflexivity. }
  destruct (pl_S p) as [|s l] eqn:ES.
  - destruct (all_some _) as [S|]; [|exact I]. apply H. exists g. reflexivity.
  - apply H. exists g. destruct p; cbn in *; subst; reflexivity.
Qed.
Lemma est_all_gen (Rp : plane -> plane -> Prop) eigs tr l l' :
  (forall p q, Rp p q -> orel (fun a b => fst a = fst b /\ simP (snd a) (snd b)) (estimate_plane eigs tr p) (estimate_plane eigs tr q)) ->
  Forall2 (fun a b => fst a = fst b /\ Rp (snd a) (snd b)) l l' ->
  orel (fun a b => fst a = fst b /\ simL (snd a) (snd b)) (estimate_all eigs tr l) (estimate_all eigs tr l').
Proof.
  intros HR H. induction H as [|[i p] [j q] l l' (E & B) H IH]; cbn; [split; auto; constructor|]. cbn in E, B. subst j. apply HR in B.
  destruct (estimate_plane eigs tr p) as [[e p1]|], (estimate_plane eigs tr q) as [[e' q1]|]; cbn in B; try contradiction; auto. destruct B as [<- B].
  destruct (estimate_all eigs tr l) as [[s l1]|], (estimate_all eigs tr l') as [[s' l1']|]; cbn in IH; try contradiction; auto. destruct IH as [<- IH]. cbn. split; auto. constructor; auto.
Qed.

(** ** Optimizer runs from related states *)
Section OptRel.
Context {X : Type} (P : problem X) (inv : nat -> (nat -> nat -> R) -> nat -> nat -> R) (Rx : X -> X -> Prop).
Hypothesis HE : forall x y, Rx x y -> orel (fun a b => Rx (fst a) (fst b) /\ snd a = snd b) (calculate_error P x) (calculate_error P y).
Hypothesis HG : forall x y, Rx x y -> orel (fun a b => Rx (fst a) (fst b) /\ snd a = snd b) (calculate_gradient_hessian P x) (calculate_gradient_hessian P y).
Hypothesis HU : forall dx x y, Rx x y -> orel Rx (update_state P dx x) (update_state P dx y).
Hypothesis HB : forall x y, Rx x y -> Rx (bookkeep_state P x) (bookkeep_state P y).
Hypothesis HR : forall x y, Rx x y -> Rx (update_state_from_bookkeep P x) (update_state_from_bookkeep P y).
Definition relO (o o' : opt X) : Prop := exists y, o' = with_x o y /\ Rx (o_x o) y.
Lemma relO_x o o' x y : relO o o' -> Rx x y -> relO (with_x o x) (with_x o' y).
Proof. intros (z & -> & _) H. exists y. auto. Qed.
Lemma relO_lam o o' l : relO o o' -> relO (with_lam o l) (with_lam o' l).
Proof. intros (z & -> & H). exists z. auto. Qed.
Lemma rel_iteration b o o' : relO o o' -> orel relO (one_iteration P inv b o) (one_iteration P inv b o').
Proof.
  intros (y & -> & H). unfold one_iteration. cbn [with_x o_x o_method o_lambda o_tol o_max]. apply HG in H.
  destruct (calculate_gradient_hessian P (o_x o)) as [[x1 q]|], (calculate_gradient_hessian P y) as [[y1 q']|]; cbn in H; try contradiction; auto. destruct H as [H <-]. destruct q as [[n g] Hs].
  cbv zeta. match goal with |- orel _ (match update_state P ?dx _ with _ => _ end) _ => pose proof (HU dx _ _ H) as K; destruct (update_state P dx x1) as [x2|], (update_state P dx y1) as [y2|] end; cbn in K; try contradiction; auto.
  cbn. exists y2. auto.
Qed.
Lemma rel_nr fuel : forall iters prev o o', relO o o' -> orel (fun a b => relO (fst a) (fst b) /\ snd a = snd b) (nr_loop P inv fuel iters prev o) (nr_loop P inv fuel iters prev o').
Proof.
  induction fuel as [|fuel IH]; intros iters prev o o' H; cbn [nr_loop]; [exact I|]. apply (rel_iteration false) in H.
  destruct (one_iteration P inv false o) as [o1|], (one_iteration P inv false o') as [o1'|]; cbn in H; try contradiction; auto.
  pose proof H as K. destruct K as (y & -> & K). cbn [o_x with_x]. apply HE in K.
  destruct (calculate_error P (o_x o1)) as [[x2 c]|], (calculate_error P y) as [[y2 c']|]; cbn in K; try contradiction; auto. destruct K as [K <-]. cbv zeta. cbn [o_tol o_max with_x].
  assert (L : relO (with_x o1 x2) (with_x (with_x o1 y) y2)) by (apply relO_x; auto).
  destruct (andb _ _); [apply IH; exact L | split; auto].
Qed.
Lemma rel_pass prev o o' : relO o o' -> orel (fun a b => relO (fst (fst a)) (fst (fst b)) /\ snd (fst a) = snd (fst b) /\ snd a = snd b) (lm_pass P inv prev o) (lm_pass P inv prev o').
Proof.
  intros H. unfold lm_pass. assert (H1 : relO (with_x o (bookkeep_state P (o_x o))) (with_x o' (bookkeep_state P (o_x o')))).
  { apply relO_x; auto. apply HB. destruct H as (y & -> & H). exact H. }
  apply (rel_iteration true) in H1. destruct (one_iteration P inv true (with_x o _)) as [o1|], (one_iteration P inv true (with_x o' _)) as [o1'|]; cbn in H1; try contradiction; auto.
  pose proof H1 as K. destruct K as (y & -> & K). cbn [o_x with_x]. apply HE in K.
  destruct (calculate_error P (o_x o1)) as [[x2 c]|], (calculate_error P y) as [[y2 c']|]; cbn in K; try contradiction; auto. destruct K as [K <-]. cbv zeta. cbn [o_tol o_lambda with_x].
  assert (L : relO (with_x o1 x2) (with_x (with_x o1 y) y2)) by (apply relO_x; auto).
  destruct (decide _ _ _); cbn; split; auto.
  - apply relO_x; [|apply HR; auto]. apply (relO_lam _ _ (o_lambda o1 * 2)) in L. exact L.
  - apply (relO_lam _ _ (match prev with Some p => match c with Some c0 => new_lambda (o_lambda o1) (p - c0) (model_decrease (with_x o1 x2)) | None => o_lambda o1 end | None => o_lambda o1 end)) in L. exact L.
Qed.
Lemma rel_lm fuel : forall iters prev o o', relO o o' -> orel (fun a b => relO (fst a) (fst b) /\ snd a = snd b) (lm_steps P inv fuel iters prev o) (lm_steps P inv fuel iters prev o').
Proof.
  induction fuel as [|fuel IH]; intros iters prev o o' H; cbn [lm_steps]; [exact I|]. apply (rel_pass prev) in H.
  destruct (lm_pass P inv prev o) as [[[o1 prev1] e]|], (lm_pass P inv prev o') as [[[o1' prev1'] e']|]; cbn in H; try contradiction; auto. destruct H as (H & <- & <-).
  assert (Z : forall a b, relO a b -> orel (fun a b => relO (fst a) (fst b) /\ snd a = snd b)
    (match calculate_error P (o_x a) with None => None | Some (x3, _) => Some (with_x a x3, S iters) end)
    (match calculate_error P (o_x b) with None => None | Some (x3, _) => Some (with_x b x3, S iters) end)).
  { intros a b (z & -> & K). cbn [o_x with_x]. apply HE in K. destruct (calculate_error P (o_x a)) as [[x3 c]|], (calculate_error P z) as [[y3 c']|]; cbn in K; try contradiction; auto.
    split; auto. cbn. exists y3. split; auto. apply K. }
  assert (M : o_max o1 = o_max o1') by (destruct H as (z & -> & _); reflexivity). destruct e.
  - rewrite <- M. destruct (Nat.ltb _ _); [apply IH; auto|]. cbv zeta. apply Z. apply relO_x; auto. apply HR. destruct H as (z & -> & H). exact H.
  - split; auto.
  - rewrite <- M. destruct (Nat.ltb _ _); [apply IH; auto|]. cbv zeta. apply Z. auto.
Qed.
Lemma rel_solve m mx la o o' : relO o o' -> orel (fun a b => relO (fst a) (fst b) /\ snd a = snd b) (opt_solve P inv m mx la o) (opt_solve P inv m mx la o').
Proof.
  intros (y & -> & H). unfold opt_solve. cbn [with_x o_x o_tol o_lambda o_n o_grad o_hess o_dx]. pose proof (HE _ _ H) as K.
  destruct m; unfold opt_nr, opt_lm; cbn [o_x o_max];
    (destruct (calculate_error P (o_x o)) as [[x2 c]|], (calculate_error P y) as [[y2 c']|]; cbn in K; try contradiction; auto; destruct K as [K <-]);
    [apply rel_nr | apply rel_lm | apply rel_lm]; exists y2; auto.
Qed.
End OptRel.

(** ** Registrations that differ in gradQ_ only *)
Lemma gradient_sim t p q : simP p q -> calculate_gradient t p = calculate_gradient t q.
Proof. intros (g & ->). reflexivity. Qed.
Lemma gh_planes_sim t l l' : simL l l' -> gh_planes t l = gh_planes t l'.
Proof.
  induction 1 as [|[i p] [j q] l l' (E & B) H IH]; cbn; auto. cbn in E, B. subst j. rewrite (gradient_sim t p q B), IH. reflexivity.
Qed.
Lemma grad_planes_sim t l l' : simL l l' -> grad_planes t l = grad_planes t l'.
Proof.
  induction 1 as [|[i p] [j q] l l' (E & B) H IH]; cbn; auto. cbn in E, B. subst j. rewrite (gradient_sim t p q B), IH. reflexivity.
Qed.
Lemma gh_poses_sim n ts l l' : simL l l' -> orel (fun a b => fst a = fst b /\ simL (snd a) (snd b)) (gh_poses n ts l) (gh_poses n ts l').
Proof.
  intros H. destruct ts as [|t ts]; cbn [gh_poses]; [split; auto|]. rewrite (gh_planes_sim t l l' H).
  destruct (gh_planes t l') as [[[g h] l1]|]; [|exact I]. destruct (gh_poses n ts l1) as [[[gs hs] l2]|]; [|exact I]. split; auto. apply simL_refl.
Qed.
Lemma grad_poses_sim ts l l' : simL l l' -> orel (fun a b => fst a = fst b /\ simL (snd a) (snd b)) (grad_poses ts l) (grad_poses ts l').
Proof.
  intros H. destruct ts as [|t ts]; cbn [grad_poses]; [split; auto|]. rewrite (grad_planes_sim t l l' H).
  destruct (grad_planes t l') as [[[g h] l1]|]; [|exact I]. destruct (grad_poses ts l1) as [[gs l2]|]; [|exact I]. split; auto. apply simL_refl.
Qed.
Section Sim.
Context (sel : list M4 -> list M4) (eigs : M4 -> eigen4).
Notation "x ~~ y" := (orel (fun a b => fst a = fst b /\ simR (snd a) (snd b)) x y) (at level 70).
Lemma simR_refl r : simR r r.
Proof. exists (pr_planes r). split; [destruct r; reflexivity | apply simL_refl]. Qed.
Lemma sim_error r r' : simR r r' -> sh_current_error sel eigs r ~~ sh_current_error sel eigs r'.
Proof.
  intros (l & -> & H). unfold sh_current_error. cbn [with_planes pr_traj pr_planes]. pose proof (est_all_gen simP eigs (sel (pr_traj r)) _ _ (estimate_sim' eigs _) H) as K.
  destruct (estimate_all _ _ (pr_planes r)) as [[e l1]|], (estimate_all _ _ l) as [[e' l1']|]; cbn in K; try contradiction; auto. destruct K as [<- K]. cbn. split; auto. exists l1'. auto.
Qed.
Lemma base_error r l : baseL (pr_planes r) l -> sh_current_error sel eigs r ~~ sh_current_error sel eigs (with_planes r l).
Proof.
  intros H. unfold sh_current_error. cbn [with_planes pr_traj pr_planes]. pose proof (est_all_gen baseP eigs (sel (pr_traj r)) _ _ (estimate_sim eigs _) H) as K.
  destruct (estimate_all _ _ (pr_planes r)) as [[e l1]|], (estimate_all _ _ l) as [[e' l1']|]; cbn in K; try contradiction; auto. destruct K as [<- K]. cbn. split; auto. exists l1'. auto.
Qed.
Lemma sim_traj r r' tr : simR r r' -> simR (with_traj r tr) (with_traj r' tr).
Proof. intros (l & -> & H). exists l. auto. Qed.
Lemma sim_planes r r' l l' : simR r r' -> simL l l' -> simR (with_planes r l) (with_planes r' l').
Proof. intros (l0 & -> & H) H'. exists l'. auto. Qed.
Lemma sim_restore r r' : simR r r' -> simR (sh_restore sel eigs r) (sh_restore sel eigs r').
Proof.
  intros H. unfold sh_restore. pose proof H as (l & -> & HL). cbn [with_planes pr_nposes pr_book pr_traj]. destruct (interpolate_middle _ _ _) as [tr|]; [|exact H].
  pose proof (sim_error _ _ (sim_traj _ _ tr H)) as K. destruct (sh_current_error sel eigs (with_traj r tr)) as [[e r1]|], (sh_current_error sel eigs (with_traj (with_planes r l) tr)) as [[e' r1']|]; cbn in K; try contradiction.
  - apply K.
  - apply sim_traj. exact H.
Qed.
Lemma sim_move dx r r' : simR r r' -> orel simR (move_last dx r) (move_last dx r').
Proof.
  intros H. unfold move_last. pose proof H as (l & -> & HL). cbn [with_planes pr_nposes pr_traj]. destruct (last_pose (pr_traj r)) as [T|]; [|exact I]. cbv zeta.
  destruct (interpolate_middle _ _ _) as [tr|]; [|exact I]. cbn. apply (sim_traj _ _ tr H).
Qed.
Lemma sim_optimizer inv m mx r r' : simR r r' -> orel simR (sh_run_optimizer sel eigs inv m mx r) (sh_run_optimizer sel eigs inv m mx r').
Proof.
  intros H. unfold sh_run_optimizer.
  assert (K : orel (fun a b => relO simR (fst a) (fst b) /\ snd a = snd b) (opt_solve (sh_problem sel eigs) inv m mx (1 / 100) (opt_new r (1 / 10000) (1 / 100000))) (opt_solve (sh_problem sel eigs) inv m mx (1 / 100) (opt_new r' (1 / 10000) (1 / 100000)))).
  { apply rel_solve; cbn [sh_problem calculate_error calculate_gradient_hessian update_state bookkeep_state update_state_from_bookkeep].
    - intros x y G. unfold sh_calculate_error. apply sim_error in G. destruct (sh_current_error sel eigs x) as [[e x1]|], (sh_current_error sel eigs y) as [[e' y1]|]; cbn in G; try contradiction; auto. destruct G as [<- G]. cbn. auto.
    - intros x y G. unfold sh_gradient_hessian. assert (NP : pr_nposes x = pr_nposes y) by (destruct G as (l & -> & _); reflexivity). apply sim_error in G.
      destruct (sh_current_error sel eigs x) as [[e x1]|], (sh_current_error sel eigs y) as [[e' y1]|]; cbn in G; try contradiction; auto. destruct G as [<- G]. rewrite <- NP.
      assert (GL : simL (pr_planes x1) (pr_planes y1)) by (destruct G as (l & -> & GL); exact GL). apply (gh_poses_sim (pr_nposes x) (seq 1 (pr_nposes x - 1))) in GL.
      destruct (gh_poses _ _ (pr_planes x1)) as [[[g h] l]|], (gh_poses _ _ (pr_planes y1)) as [[[g' h'] l']|]; cbn in GL; try contradiction; auto. destruct GL as [GE GL]. injection GE as <- <-. cbn. split; auto. apply sim_planes; auto.
    - intros dx x y G. apply sim_move. exact G.
    - intros x y G. unfold pr_bookkeep_state, get_last_pose. pose proof G as (l & -> & GL). cbn [with_planes pr_traj]. destruct (last_pose _); [|exact G]. exists l. auto.
    - intros x y G. apply sim_restore. exact G.
    - exists r'. split; auto. }
  destruct (opt_solve _ _ _ _ _ (opt_new r _ _)) as [[o k]|], (opt_solve _ _ _ _ _ (opt_new r' _ _)) as [[o' k']|]; cbn in K; try contradiction; auto. destruct K as [(y & -> & K) <-]. cbn.
  destruct K as (l & -> & K). exists l. auto.
Qed.
Lemma sim_all_poses r r' : simR r r' -> sh_all_poses_pass sel eigs r ~~ sh_all_poses_pass sel eigs r'.
Proof.
  intros G. unfold sh_all_poses_pass. assert (NP : pr_nposes r = pr_nposes r' /\ pr_alpha r = pr_alpha r') by (destruct G as (l & -> & _); split; reflexivity). destruct NP as [<- <-]. apply sim_error in G.
  destruct (sh_current_error sel eigs r) as [[e x1]|], (sh_current_error sel eigs r') as [[e' y1]|]; cbn in G; try contradiction; auto. destruct G as [<- G].
  assert (GL : simL (pr_planes x1) (pr_planes y1)) by (destruct G as (l & -> & GL); exact GL). apply (grad_poses_sim (seq 1 (pr_nposes r - 1))) in GL.
  destruct (grad_poses _ (pr_planes x1)) as [[gs l]|], (grad_poses _ (pr_planes y1)) as [[gs' l']|]; cbn in GL; try contradiction; auto. destruct GL as [<- GL]. cbv zeta. destruct (_ =? 0)%nat; [exact I|].
  assert (T : pr_traj x1 = pr_traj y1) by (destruct G as (l0 & -> & _); reflexivity). rewrite <- T. destruct (move_poses _ _ _) as [tr|]; [|exact I]. cbn. split; auto. apply sim_traj, sim_planes; auto.
Qed.
Lemma sim_nag r r' : simR r r' -> sh_nag_pass sel eigs r ~~ sh_nag_pass sel eigs r'.
Proof.
  intros G. unfold sh_nag_pass. assert (NP : pr_nposes r = pr_nposes r' /\ pr_alpha r = pr_alpha r' /\ pr_beta r = pr_beta r') by (destruct G as (l & -> & _); repeat split; reflexivity). destruct NP as (<- & <- & <-). apply sim_error in G.
  destruct (sh_current_error sel eigs r) as [[e x1]|], (sh_current_error sel eigs r') as [[e' y1]|]; cbn in G; try contradiction; auto. destruct G as [<- G].
  assert (GL : simL (pr_planes x1) (pr_planes y1)) by (destruct G as (l & -> & GL); exact GL). apply (grad_poses_sim (seq 1 (pr_nposes r - 1))) in GL.
  destruct (grad_poses _ (pr_planes x1)) as [[gs l]|], (grad_poses _ (pr_planes y1)) as [[gs' l']|]; cbn in GL; try contradiction; auto. destruct GL as [<- GL]. destruct (existsb _ _); [exact I|].
  assert (T : pr_prev x1 = pr_prev y1) by (destruct G as (l0 & -> & _); reflexivity). rewrite <- T. destruct (rev (pr_prev x1)) as [|v older]; [exact I|]. cbv zeta.
  match goal with |- context [move_last ?d (with_planes x1 l)] => pose proof (sim_move d _ _ (sim_planes _ _ _ _ G GL)) as K; destruct (move_last d (with_planes x1 l)) as [a|], (move_last d (with_planes y1 l')) as [b|] end; cbn in K; try contradiction; auto.
  cbn. split; auto. destruct K as (l0 & -> & K). exists l0. auto.
Qed.
Lemma sim_descend pass single : (forall r r', simR r r' -> pass r ~~ pass r') -> forall fuel iters prev r r', simR r r' ->
  orel simR (descend pass single fuel iters prev r) (descend pass single fuel iters prev r').
Proof.
  intros HP. induction fuel as [|fuel IH]; intros iters prev r r' H; cbn [descend]; [destruct H as (l & -> & H); exists l; auto|].
  apply HP in H. destruct (pass r) as [[e x]|], (pass r') as [[e' y]|]; cbn in H; try contradiction; auto. destruct H as [<- H].
  destruct (_ && _); [apply IH; auto|]. destruct H as (l & -> & H). exists l. auto.
Qed.
Lemma init_first_sim l l' : simL l l' -> orel (fun a b => fst a = fst b /\ simL (snd a) (snd b)) (init_first l) (init_first l').
Proof.
  induction 1 as [|[i p] [j q] l l' (E & B) H IH]; cbn; [split; auto; constructor|]. cbn in E, B. subst j.
  assert (C : orel simP (calculate_all_matrices_S false p) (calculate_all_matrices_S false q)).
  { destruct B as (g & ->). unfold calculate_all_matrices_S. cbn [with_gradQ pl_S pl_len pl_points pl_est pl_lambda pl_number pl_Q pl_acc pl_gradQ].
    destruct (pl_S p) eqn:ES; [destruct (all_some _); [|exact I]; exists g; reflexivity | exists g; reflexivity]. }
  destruct (calculate_all_matrices_S false p) as [p1|], (calculate_all_matrices_S false q) as [q1|]; cbn in C; try contradiction; auto.
  assert (N : get_number_points 0 p1 = get_number_points 0 q1 /\ mean_at 0 p1 = mean_at 0 q1) by (destruct C as (g & ->); split; reflexivity). destruct N as [<- <-].
  destruct (get_number_points 0 p1) as [n|]; [|exact I]. destruct (init_first l) as [[ys l1]|], (init_first l') as [[ys' l1']|]; cbn in IH; try contradiction; auto. destruct IH as [<- IH].
  destruct (n =? 0)%nat; [split; auto; constructor; auto|]. destruct (mean_at 0 p1); [|exact I]. cbn. split; auto. constructor; auto.
Qed.
Lemma init_pairs_sim t ys l l' : simL l l' -> forall c, init_pairs t ys c l = init_pairs t ys c l'.
Proof.
  induction 1 as [|[i p] [j q] l l' (E & B) H IH]; intros c; cbn; auto. cbn in B. rewrite IH.
  assert (N : get_number_points t p = get_number_points t q /\ mean_at t p = mean_at t q) by (destruct B as (g & ->); split; reflexivity). destruct N as [<- <-]. reflexivity.
Qed.
Lemma init_poses_sim jacobi ys ts : forall r r', simR r r' -> init_poses jacobi ys ts r ~~ init_poses jacobi ys ts r'.
Proof.
  induction ts as [|t ts IH]; intros r r' H; cbn [init_poses]; [split; auto|]. pose proof H as (l & -> & HL). cbn [with_planes pr_planes pr_traj]. rewrite (init_pairs_sim t ys _ _ HL 0).
  destruct (init_pairs t ys 0 l) as [xy|]; [|exact I]. destruct (arun _ _ _ _) as [[[|c] T]|]; [split; auto | | exact I]. destruct (_ <? _)%nat; [|exact I]. apply IH. apply (sim_traj _ _ _ H).
Qed.
Lemma base_solve inv jacobi m s r l : baseL (pr_planes r) l -> sh_solve sel eigs inv jacobi m s r ~~ sh_solve sel eigs inv jacobi m s (with_planes r l).
Proof.
  intros H. unfold sh_solve. apply base_error in H. destruct (sh_current_error sel eigs r) as [[e x]|], (sh_current_error sel eigs (with_planes r l)) as [[e' y]|]; cbn in H; try contradiction; auto.
  destruct H as [<- H]. cbv zeta. assert (K : simR (with_initial x e) (with_initial y e)) by (destruct H as (l0 & -> & H); exists l0; auto).
  assert (Z : forall a b, orel simR a b -> option_map (fun r' => (0%nat, r')) a ~~ option_map (fun r' => (0%nat, r')) b) by (intros [a|] [b|] Z; cbn in *; auto).
  generalize dependent (with_initial x e). generalize dependent (with_initial y e). intros v u K. destruct m; try apply Z.
  - unfold solve_initialize. pose proof K as (l0 & -> & KL). cbn [with_planes pr_planes pr_nposes]. apply init_first_sim in KL.
    destruct (init_first (pr_planes u)) as [[ys l1]|], (init_first l0) as [[ys' l1']|]; cbn in KL; try contradiction; auto. destruct KL as [<- KL]. apply init_poses_sim. exists l1'. auto.
  - exact K.
  - apply sim_descend; auto. apply sim_nag.
  - apply sim_descend; auto. apply sim_all_poses.
  - apply sim_optimizer; auto.
  - exact K.
  - apply sim_optimizer; auto.
  - apply sim_optimizer; auto.
Qed.
End Sim.
Lemma base_call sel eigs inv jacobi c r l : no_push c -> baseL (pr_planes r) l ->
  orel (fun a b => fst a = fst b /\ exists l', snd b = with_planes (snd a) l') (do_call sel eigs inv jacobi c r) (do_call sel eigs inv jacobi c (with_planes r l)).
Proof.
  intros N H. destruct c; cbn [do_call].
  - apply (base_error sel eigs) in H. destruct (sh_current_error sel eigs r) as [[e x]|], (sh_current_error sel eigs (with_planes r l)) as [[e' y]|]; cbn in H; try contradiction; auto. destruct H as (<- & l0 & -> & _). cbn. eauto.
  - apply (base_solve sel eigs inv jacobi mode single) in H. destruct (sh_solve sel eigs inv jacobi mode single r) as [[e x]|], (sh_solve sel eigs inv jacobi mode single (with_planes r l)) as [[e' y]|]; cbn in H; try contradiction; auto. destruct H as (<- & l0 & -> & _). cbn. eauto.
  - unfold get_trajectory. cbn [with_planes pr_nposes pr_traj]. destruct (t <? pr_nposes r)%nat; [destruct (nth_error (pr_traj r) t); [|exact I]|]; cbn; eauto.
  - unfold set_last_pose. cbn [with_planes pr_nposes pr_traj]. destruct (_ <=? _)%nat; [cbn; eauto|]. destruct (_ <=? _)%nat; [|exact I]. cbn. split; auto. exists l. reflexivity.
  - cbn. split; auto. exists l. reflexivity.
  - cbn. unfold calculate_total_number_points. cbn. assert (E : forall a b, baseL a b -> forall n, fold_left (fun n (q : nat * plane) => (n + get_total_number_points (snd q))%nat) a n = fold_left (fun n (q : nat * plane) => (n + get_total_number_points (snd q))%nat) b n).
    { induction 1 as [|x y a b (E & A1 & A2 & A3 & _) G IH]; intros n; cbn; auto. unfold get_total_number_points at 2 4. rewrite A3. apply IH. }
    unfold total_points. rewrite (E _ _ H). split; auto. exists l. reflexivity.
  - destruct N.
Qed.

(** ** The shared state *)
Lemma base_list_refl l : Forall (fun q => okS (snd q)) l -> baseL l l.
Proof. induction 1; constructor; auto. split; auto. apply base_refl. auto. Qed.
Lemma base_list_ok l l' : baseL l l' -> Forall (fun q => okS (snd q)) l /\ Forall (fun q => okS (snd q)) l'.
Proof. induction 1 as [|x y a b (E & A1 & A2 & A3 & A4 & A5) G IH]; split; constructor; tauto. Qed.
Lemma base_list_trans a b c : baseL a b -> baseL b c -> baseL a c.
Proof.
  intros H. revert c. induction H as [|x y a b (E & H1) H IH]; intros c G; inversion G as [|? z ? c' (E2 & G1) G']; subst; constructor; [|apply IH; exact G'].
  split; [congruence|]. eapply base_trans; eauto.
Qed.
Lemma base_list_sym a b : baseL a b -> baseL b a.
Proof. induction 1 as [|x y a b (E & H1) H IH]; constructor; auto. split; auto. apply base_sym; auto. Qed.
Lemma base_evolves eigs a b c : baseL a b -> evolves eigs b c -> baseL a c.
Proof.
  intros H G. eapply base_list_trans; [exact H|]. apply base_list_ok in H. eapply evolves_base; [apply H | apply evolves_refl | exact G].
Qed.
Definition reset_all (l : list (nat * plane)) : list (nat * plane) := map (fun q => (fst q, plane_reset (snd q))) l.
Lemma base_reset a b : baseL a b -> baseL (reset_all a) (reset_all b).
Proof. induction 1 as [|x y a b (E & A1 & A2 & A3 & A4 & A5) G IH]; constructor; auto. cbn. split; auto. repeat split; auto; left; reflexivity. Qed.
Lemma base_reset_self a : Forall (fun q => okS (snd q)) a -> baseL a (reset_all a).
Proof. induction 1; constructor; auto. cbn. split; auto. repeat split; auto. left; reflexivity. Qed.
Lemma base_ids a b : baseL a b -> map fst a = map fst b.
Proof. induction 1 as [|x y a b (E & _) G IH]; cbn; auto. congruence. Qed.

Lemma set_at_nth {A} k (x : A) l y : nth_error l k = Some y -> nth_error (set_at k x l) k = Some x.
Proof. revert l. induction k as [|k IH]; intros [|a l] H; cbn in *; try discriminate; auto. Qed.
Section Run.
Context (eigs : M4 -> eigen4) (inv : nat -> (nat -> nat -> R) -> nat -> nat -> R) (jacobi : M3 -> svd).
Lemma call_no_push_base j c s a s' l : no_push c -> baseL l (sc_planes (sh_scene s)) -> call_on eigs inv jacobi j c s = Some (a, s') ->
  baseL l (sc_planes (sh_scene s')) /\ sh_owner s' = sh_owner s /\ sc_nplanes (sh_scene s') = sc_nplanes (sh_scene s) /\ sc_nposes (sh_scene s') = sc_nposes (sh_scene s) /\
  (forall i, i <> j -> nth_error (sh_regs s') i = nth_error (sh_regs s) i).
Proof.
  intros N B. unfold call_on. destruct (nth_error (sh_regs s) j) as [[[|] r]|] eqn:E; [| |discriminate].
  - destruct (do_call _ _ _ _ _ _) as [[a1 r1]|] eqn:D; [|discriminate]. intros H. injection H as _ <-. cbn. apply ev_call in D; auto. repeat split; auto.
    + eapply base_evolves; [exact B | exact D].
    + intros i Hi. apply set_at_other. auto.
  - destruct (do_call _ _ _ _ _ _) as [[a1 r1]|] eqn:D; [|discriminate]. intros H. injection H as _ <-. cbn. repeat split; auto. intros i Hi. apply set_at_other. auto.
Qed.
Lemma event_base e s a s' l : pushes_none e -> baseL l (sc_planes (sh_scene s)) -> event_step eigs inv jacobi e s = Some (a, s') ->
  baseL l (sc_planes (sh_scene s')) /\ sc_nplanes (sh_scene s') = sc_nplanes (sh_scene s) /\ sc_nposes (sh_scene s') = sc_nposes (sh_scene s).
Proof.
  intros N B. destruct e as [k | k c]; cbn [event_step].
  - unfold fill_reg. destruct (nth_error (sh_regs s) k) as [[b r]|]; [|discriminate]. intros H. injection H as _ <-. cbn. repeat split; auto.
    eapply base_list_trans; [exact B|]. apply base_reset_self. apply base_list_ok in B. apply B.
  - destruct (call_on _ _ _ _ _ _) as [[a1 s1]|] eqn:C; [|discriminate]. intros H. injection H as _ <-. cbn. apply (call_no_push_base _ _ _ _ _ l) in C; [tauto | destruct c; exact N | exact B].
Qed.
Lemma run_base_shared evs : forall s a s' l, Forall pushes_none evs -> baseL l (sc_planes (sh_scene s)) -> shared_run eigs inv jacobi evs s = Some (a, s') ->
  baseL l (sc_planes (sh_scene s')) /\ sc_nplanes (sh_scene s') = sc_nplanes (sh_scene s) /\ sc_nposes (sh_scene s') = sc_nposes (sh_scene s).
Proof.
  induction evs as [|e evs IH]; intros s a s' l F B H; cbn [shared_run] in H; [injection H as _ <-; auto|]. inversion F; subst.
  destruct (event_step eigs inv jacobi e s) as [[a1 s1]|] eqn:E; [|discriminate]. destruct (shared_run eigs inv jacobi evs s1) as [[a2 s2]|] eqn:E2; [|discriminate]. injection H as _ <-.
  eapply event_base in E; eauto. destruct E as (B1 & P1 & P2). eapply IH in E2; eauto. destruct E2 as (B2 & Q1 & Q2). repeat split; auto; congruence.
Qed.
(** the registration filled last, beside one with planes of its own *)
Lemma newest_run k evs : forall s a s' r x, Forall pushes_none evs -> Forall fills_none evs -> sh_owner s = k ->
  nth_error (sh_regs s) k = Some (true, x) -> (exists l, r = with_planes x l) -> baseL (pr_planes r) (sc_planes (sh_scene s)) ->
  shared_run eigs inv jacobi evs s = Some (a, s') ->
  exists r' x', alone_run eigs inv jacobi (calls_of k evs) r = Some (answers_of k a, r') /\ nth_error (sh_regs s') k = Some (true, x') /\ (exists l, r' = with_planes x' l).
Proof.
  induction evs as [|e evs IH]; intros s a s' r x F G O K W B H; cbn [shared_run] in H.
  - injection H as <- <-. exists r, x. cbn. auto.
  - inversion F; inversion G; subst. destruct e as [j | j c]; [contradiction|]. cbn [event_step] in H.
    destruct (call_on eigs inv jacobi j c s) as [[a1 s1]|] eqn:C; [|discriminate]. cbn [option_map] in H.
    destruct (shared_run eigs inv jacobi evs s1) as [[a2 s2]|] eqn:E2; [|cbn in H; rewrite E2 in H; discriminate H]. cbn in H. rewrite E2 in H. injection H as <- <-.
    assert (N : no_push c) by (destruct c; auto). pose proof (call_no_push_base _ _ _ _ _ _ N B C) as (B1 & O1 & _ & _ & R1).
    cbn [calls_of answers_of flat_map fst]. destruct (Nat.eqb_spec j (sh_owner s)) as [-> | Hj].
    + unfold call_on in C. rewrite K in C. destruct (do_call (points_to s (sh_owner s)) eigs inv jacobi c _) as [[a3 x3]|] eqn:D; [|discriminate]. cbn in C. injection C as <- <-.
      assert (PT : do_call (points_to s (sh_owner s)) eigs inv jacobi c (with_planes x (sc_planes (sh_scene s))) = do_call (fun tr => tr) eigs inv jacobi c (with_planes x (sc_planes (sh_scene s)))).
      { unfold points_to. rewrite Nat.eqb_refl. reflexivity. }
      rewrite PT in D. destruct W as (l & ->). cbn [with_planes pr_planes] in B. pose proof (base_call (fun tr => tr) eigs inv jacobi c (with_planes x l) (sc_planes (sh_scene s)) N B) as BC.
      change (with_planes (with_planes x l) (sc_planes (sh_scene s))) with (with_planes x (sc_planes (sh_scene s))) in BC. rewrite D in BC.
      cbn [app alone_run]. destruct (do_call (fun tr => tr) eigs inv jacobi c (with_planes x l)) as [[a4 x4]|] eqn:D4; cbn in BC; [|contradiction]. destruct BC as (-> & l' & ->).
      pose proof (fun HK HW HB => IH _ a2 s2 x4 (with_planes x4 l') H3 H7 O1 HK HW HB E2) as Q. destruct Q as (r' & x' & A & K' & W').
      * cbn. eapply set_at_nth; eauto.
      * exists (pr_planes x4). destruct x4; reflexivity.
      * cbn. apply ev_call in D; auto. apply ev_call in D4; auto. eapply base_evolves; [|exact D]. cbn. apply base_list_sym. eapply base_evolves; [apply base_list_sym; exact B | exact D4].
      * exists r', x'. unfold answers_of, calls_of in A |- *. rewrite A. cbn. auto.
    + cbn [app]. edestruct (IH s1 a2 s2 r x H3 H7 O1) as (r' & x' & A & K' & W'); auto; [rewrite R1; auto|]. exists r', x'. auto.
Qed.
End Run.
(** ids are distinct: emplace adds each plane *)
Lemma emplace_new i p l : ~ In i (map fst l) -> emplace i p l = l ++ [(i, p)].
Proof.
  intros H. unfold emplace. destruct (existsb _ l) eqn:E; auto. exfalso. apply existsb_exists in E. destruct E as (q & I1 & E). apply Nat.eqb_eq in E. subst. apply H. apply in_map. auto.
Qed.
Lemma refill_planes l : forall r, NoDup (map fst (pr_planes r) ++ map fst l) ->
  fold_left (fun r q => add_plane (fst q) (plane_reset (snd q)) r) l r = with_planes r (pr_planes r ++ reset_all l).
Proof.
  induction l as [|[i p] l IH]; intros r N; cbn [fold_left reset_all map].
  - rewrite app_nil_r. destruct r; reflexivity.
  - cbn [map fst snd] in *. assert (E : add_plane i (plane_reset p) r = with_planes r (pr_planes r ++ [(i, plane_reset p)])).
    { unfold add_plane. rewrite emplace_new; auto. apply NoDup_remove_2 in N. intros H. apply N. apply in_or_app. auto. }
    rewrite E, IH.
    + cbn [with_planes pr_planes]. unfold with_planes. cbn. f_equal. unfold reset_all. rewrite <- app_assoc. reflexivity.
    + cbn [with_planes pr_planes]. rewrite map_app, <- app_assoc. exact N.
Qed.
Lemma create_reg sc r : NoDup (map fst (sc_planes sc)) ->
  create_plane_registration sc r = with_planes (set_number_planes_and_poses (sc_nplanes sc) (sc_nposes sc) r) (reset_all (sc_planes sc)).
Proof. intros N. unfold create_plane_registration. rewrite refill_planes; [reflexivity | exact N]. Qed.
