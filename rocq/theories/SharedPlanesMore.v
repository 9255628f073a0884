(** Registrations filled from one generator: what the older ones see. *)
Require Import Reals List Arith ZArith Lia Lra Psatz Bool.
From Verif Require Import Lin LinFacts SO3 SE3 SpecGeom SE3Alg SE3Exp Sums Registration SpecRegistration Optimizer Planes SpecPlanes PlanesProofs PlanesMore SpecPlaneReg PlaneRegProofs PlaneRegMore PlaneRegBox.
From Verif Require Import CreatePoints CreatePointsProofs CreatePointsReg PropSE3 PropPlaneReg SharedPlanes SharedPlanesProofs.
Import ListNotations.
Local Open Scope R_scope.

(** ** A scene of CreatePoints *)
Definition untouched (n : nat) (l : list (nat * plane)) : Prop := map fst l = seq 0 n /\ Forall (fun q => pl_S (snd q) = []) l.
Lemma set_at_same {A B} (f : A -> B) k x l y : nth_error l k = Some y -> f x = f y -> map f (set_at k x l) = map f l.
Proof. revert l. induction k as [|k IH]; intros [|a l] H E; cbn in *; try discriminate; [congruence|]. f_equal. auto. Qed.
Lemma push_S x t p p' : push_back_point x t p = Some p' -> pl_S p' = pl_S p.
Proof. unfold push_back_point. destruct (_ <? _)%nat; [destruct (nth_error _ _); [|discriminate]|]; intros H; injection H as <-; reflexivity. Qed.
Lemma make_points_untouched d p n PP T t is m : forall xs ids l st, untouched m l -> make_points d p n PP T t is (xs, ids, l) = Some st -> untouched m (snd st).
Proof.
  induction is as [|i is IH]; intros xs ids l st U H; cbn [make_points] in H; [injection H as <-; exact U|].
  destruct (make_point d p n PP T t i (xs, ids, l)) as [[[xs1 ids1] l1]|] eqn:E; [|discriminate]. apply IH in H; auto. unfold make_point in E.
  destruct (plane_index i n p) as [k|]; [|discriminate]. destruct (nth_error PP k); [|discriminate]. destruct (nth_error l k) as [[id pl]|] eqn:E1; [|discriminate].
  destruct (push_back_point _ t pl) as [pl'|] eqn:E2; [|discriminate]. injection E as _ _ <-. destruct U as [U1 U2]. split.
  - rewrite (set_at_same fst _ _ _ _ E1); auto.
  - apply set_at_forall; auto. cbn. apply push_S in E2. rewrite E2. rewrite Forall_forall in U2. exact (U2 _ (nth_error_In _ _ E1)).
Qed.
Lemma make_scans_untouched d p n PP truth ts m : forall X ids l st, untouched m l -> make_scans d p n PP truth ts (X, ids, l) = Some st -> untouched m (snd st).
Proof.
  induction ts as [|t ts IH]; intros X ids l st U H; cbn [make_scans] in H; [injection H as <-; exact U|].
  destruct (nth_error truth t) as [T|]; [|discriminate]. destruct (make_points d p n PP T t (seq 0 p) ([], [], l)) as [[[xs ks] l1]|] eqn:E; [|discriminate].
  apply (make_points_untouched _ _ _ _ _ _ _ m) in E; auto. eapply IH; [|exact H]. exact E.
Qed.
Lemma scene_untouched d p n N s : create_points d p n N = Some s -> untouched n (sc_planes s).
Proof.
  unfold create_points. cbv zeta. destruct (make_scans _ _ _ _ _ _ _) as [[[X ids] l]|] eqn:E; [|discriminate]. intros H. injection H as <-. cbn [sc_planes].
  apply (make_scans_untouched _ _ _ _ _ _ n) in E; auto. split.
  - rewrite map_map. cbn. apply map_id.
  - apply Forall_map, Forall_forall. reflexivity.
Qed.
Lemma untouched_ok n l : untouched n l -> NoDup (map fst l) /\ Forall (fun q => okS (snd q)) l.
Proof. intros [A B]. split; [rewrite A; apply seq_NoDup|]. eapply Forall_impl; [|exact B]. intros q H. left. exact H. Qed.

(** ** The newest *)
Section More.
Context (eigs : M4 -> eigen4) (inv : nat -> (nat -> nat -> R) -> nat -> nat -> R) (jacobi : M3 -> svd).
Notation run := (shared_run eigs inv jacobi).
Lemma run_app_inv a b : forall s z s', run (a ++ b) s = Some (z, s') -> exists za zb s1, run a s = Some (za, s1) /\ run b s1 = Some (zb, s') /\ z = za ++ zb.
Proof.
  induction a as [|e a IH]; intros s z s' H; cbn [app shared_run] in *; [exists [], z, s; auto|].
  destruct (event_step eigs inv jacobi e s) as [[y s0]|]; [|discriminate]. destruct (run (a ++ b) s0) as [[y1 s1]|] eqn:E; [|discriminate]. cbn in H. injection H as <- <-.
  apply IH in E. destruct E as (za & zb & s2 & A & B & ->). exists (y ++ za), zb, s2. rewrite A. cbn. rewrite app_assoc. auto.
Qed.
Lemma newest_alone d p n N sc m before a0 s0 k b r evs a s : create_points d p n N = Some sc -> Forall pushes_none before -> Forall pushes_none evs -> Forall fills_none evs ->
  run before (shared_start sc m) = Some (a0, s0) -> nth_error (sh_regs s0) k = Some (b, r) -> run (EFill k :: evs) s0 = Some (a, s) ->
  exists r', alone_run eigs inv jacobi (calls_of k evs) (create_plane_registration sc r) = Some (answers_of k a, r').
Proof.
  intros C P0 P1 F R0 K R1. destruct (untouched_ok _ _ (scene_untouched _ _ _ _ _ C)) as [ND OK].
  destruct (run_base_shared eigs inv jacobi before (shared_start sc m) a0 s0 (sc_planes sc) P0 (base_list_refl _ OK) R0) as (B0 & NP & NQ). cbn in NP, NQ.
  cbn [shared_run event_step] in R1. unfold fill_reg in R1. rewrite K in R1. cbn [option_map] in R1.
  destruct (run evs _) as [[a1 s1]|] eqn:R2; [|discriminate]. cbn in R1. injection R1 as <- <-.
  assert (ND0 : NoDup (map fst (sc_planes (sh_scene s0)))) by (rewrite <- (base_ids _ _ B0); auto).
  pose proof (fun HK HW HB => newest_run eigs inv jacobi k evs _ a1 s1 (create_plane_registration sc r) (create_plane_registration (sh_scene s0) r) P1 F (eq_refl k : sh_owner (mkShared _ k _) = k) HK HW HB R2) as Q.
  destruct Q as (r' & x' & A & _).
  - cbn. eapply set_at_nth; eauto.
  - exists (reset_all (sc_planes sc)). rewrite !create_reg by auto. rewrite NP, NQ. reflexivity.
  - cbn. rewrite create_reg by auto. cbn. apply base_reset. exact B0.
  - exists r'. exact A.
Qed.
Lemma call_other j c s a s' i : call_on eigs inv jacobi j c s = Some (a, s') -> i <> j -> nth_error (sh_regs s') i = nth_error (sh_regs s) i.
Proof.
  unfold call_on. intros H N. destruct (nth_error (sh_regs s) j) as [[[|] r]|]; [| |discriminate]; (destruct (do_call _ _ _ _ _ _) as [[x y]|]; [|discriminate]); injection H as _ <-; cbn; apply set_at_other; auto.
Qed.
Lemma call_same j c s a s' b r : call_on eigs inv jacobi j c s = Some (a, s') -> nth_error (sh_regs s) j = Some (b, r) -> sh_owner s' = sh_owner s /\ exists r', nth_error (sh_regs s') j = Some (b, r').
Proof.
  unfold call_on. intros H K. rewrite K in H. destruct b; (destruct (do_call _ _ _ _ _ _) as [[x y]|]; [|discriminate]); injection H as _ <-; cbn; (split; [reflexivity|]; exists y; eapply set_at_nth; eauto).
Qed.
Lemma call_owner j c s a s' : call_on eigs inv jacobi j c s = Some (a, s') -> sh_owner s' = sh_owner s.
Proof. unfold call_on. destruct (nth_error (sh_regs s) j) as [[[|] r]|]; [| |discriminate]; (destruct (do_call _ _ _ _ _ _) as [[x y]|]; [|discriminate]); intros H; injection H as _ <-; reflexivity. Qed.
Definition about (k : nat) (e : event) : Prop := match e with EFill j | ECall j _ => j = k end.
Lemma run_others k evs : forall s a s', Forall (fun e => ~ about k e) evs -> run evs s = Some (a, s') -> nth_error (sh_regs s') k = nth_error (sh_regs s) k.
Proof.
  induction evs as [|e evs IH]; intros s a s' F H; cbn [shared_run] in H; [injection H as _ <-; auto|]. inversion F; subst.
  destruct (event_step eigs inv jacobi e s) as [[a1 s1]|] eqn:E; [|discriminate]. destruct (run evs s1) as [[a2 s2]|] eqn:E2; [|discriminate]. injection H as _ <-. apply IH in E2; auto. rewrite E2.
  destruct e as [j | j c]; cbn in E, H2.
  - unfold fill_reg in E. destruct (nth_error (sh_regs s) j) as [[b r]|]; [|discriminate]. injection E as _ <-. cbn. apply set_at_other. auto.
  - destruct (call_on _ _ _ j c s) as [[x y]|] eqn:C; [|discriminate]. injection E as _ <-. eapply call_other; eauto.
Qed.
Lemma run_filled j evs : forall s a s' r, nth_error (sh_regs s) j = Some (true, r) -> run evs s = Some (a, s') -> exists r', nth_error (sh_regs s') j = Some (true, r').
Proof.
  induction evs as [|e evs IH]; intros s a s' r K H; cbn [shared_run] in H; [injection H as _ <-; eauto|].
  destruct (event_step eigs inv jacobi e s) as [[a1 s1]|] eqn:E; [|discriminate]. destruct (run evs s1) as [[a2 s2]|] eqn:E2; [|discriminate]. injection H as _ <-.
  assert (Q : exists r1, nth_error (sh_regs s1) j = Some (true, r1)).
  { destruct e as [i | i c]; cbn in E.
    - unfold fill_reg in E. destruct (nth_error (sh_regs s) i) as [[b r1]|] eqn:Ki; [|discriminate]. injection E as _ <-. cbn.
      destruct (Nat.eq_dec i j) as [-> | N]; [eexists; eapply set_at_nth; eauto | rewrite set_at_other by auto; eauto].
    - destruct (call_on _ _ _ i c s) as [[x y]|] eqn:C; [|discriminate]. injection E as _ <-. cbn.
      destruct (Nat.eq_dec i j) as [-> | N]; [eapply call_same in C; eauto; apply C | rewrite (call_other _ _ _ _ _ _ C) by auto; eauto]. }
  destruct Q as (r1 & Q). eapply IH; eauto.
Qed.
Lemma run_has_filled j evs : forall s a s', In (EFill j) evs -> run evs s = Some (a, s') -> exists r', nth_error (sh_regs s') j = Some (true, r').
Proof.
  intros s a s' I H. apply in_split in I. destruct I as (l1 & l2 & ->). apply run_app_inv in H. destruct H as (za & zb & s1 & _ & H & _). cbn [shared_run event_step] in H.
  unfold fill_reg in H. destruct (nth_error (sh_regs s1) j) as [[b r]|] eqn:K; [|discriminate]. cbn [option_map] in H. destruct (run l2 _) as [[a2 s2]|] eqn:E2; [|discriminate]. injection H as _ <-.
  eapply run_filled; [|exact E2]. cbn. eapply set_at_nth; eauto.
Qed.
Lemma run_owner evs : forall s a s', Forall fills_none evs -> run evs s = Some (a, s') -> sh_owner s' = sh_owner s.
Proof.
  induction evs as [|e evs IH]; intros s a s' F H; cbn [shared_run] in H; [injection H as _ <-; auto|]. inversion F; subst.
  destruct (event_step eigs inv jacobi e s) as [[a1 s1]|] eqn:E; [|discriminate]. destruct (run evs s1) as [[a2 s2]|] eqn:E2; [|discriminate]. injection H as _ <-. apply IH in E2; auto. rewrite E2.
  destruct e as [j | j c]; [contradiction|]. cbn in E. destruct (call_on _ _ _ j c s) as [[x y]|] eqn:C; [|discriminate]. injection E as _ <-. eapply call_owner; eauto.
Qed.
(** state after the last fill *)
Lemma last_filled before k evs s a s' : Forall fills_none evs -> run (before ++ EFill k :: evs) s = Some (a, s') -> sh_owner s' = k /\ exists r, nth_error (sh_regs s') k = Some (true, r).
Proof.
  intros F H. split; [|eapply run_has_filled; [|exact H]; apply in_or_app; right; left; auto].
  apply run_app_inv in H. destruct H as (za & zb & s1 & _ & H & _). cbn [shared_run event_step] in H.
  unfold fill_reg in H. destruct (nth_error (sh_regs s1) k) as [[b r]|] eqn:K; [|discriminate]. cbn [option_map] in H. destruct (run evs _) as [[a2 s2]|] eqn:E2; [|discriminate]. injection H as _ <-.
  apply run_owner in E2; auto.
Qed.

(** ** The others *)
Definition error_of (k : nat) (s : shared) : option answer := option_map fst (call_on eigs inv jacobi k CError s).
Lemma error_of_owner j s k rk rj : sh_owner s = k -> nth_error (sh_regs s) k = Some (true, rk) -> nth_error (sh_regs s) j = Some (true, rj) ->
  error_of j s = option_map (fun q => AReal (fst q)) (estimate_all eigs (pr_traj rk) (sc_planes (sh_scene s))).
Proof.
  intros O K J. unfold error_of, call_on. rewrite J. cbn [do_call]. unfold sh_current_error. cbn [with_planes pr_traj pr_planes].
  assert (P : points_to s j (pr_traj rj) = pr_traj rk).
  { unfold points_to. rewrite O. destruct (Nat.eqb_spec j k) as [-> | _]; [congruence|]. rewrite K. reflexivity. }
  rewrite P. destruct (estimate_all _ _ _) as [[e l]|]; reflexivity.
Qed.
Lemma estimate_base tr l l' : baseL l l' -> option_map fst (estimate_all eigs tr l) = option_map fst (estimate_all eigs tr l').
Proof.
  intros H. pose proof (est_all_gen baseP eigs tr l l' (estimate_sim eigs tr) H) as K.
  destruct (estimate_all eigs tr l) as [[e x]|], (estimate_all eigs tr l') as [[e' y]|]; cbn in K; try contradiction; auto. destruct K as [<- _]. reflexivity.
Qed.
(** one step of an optimizer whose error does not depend on the state *)
Lemma stale_optimizer tr m mx r r' : Forall (fun q => okS (snd q)) (pr_planes r) -> sh_run_optimizer (fun _ => tr) eigs inv m mx r = Some r' -> pr_iters r' = 1%nat.
Proof.
  intros OK. set (P := sh_problem (fun _ => tr) eigs). set (I := fun x : preg => baseL (pr_planes r) (pr_planes x)).
  assert (IE : forall x x' e, I x -> calculate_error P x = Some (x', e) -> I x') by (intros x x' e K C; eapply base_evolves; [exact K | eapply ev_calc; exact C]).
  assert (IG : forall x x' q, I x -> calculate_gradient_hessian P x = Some (x', q) -> I x') by (intros x x' q K C; eapply base_evolves; [exact K | eapply ev_gh; exact C]).
  assert (IU : forall dx x x', I x -> update_state P dx x = Some x' -> I x') by (intros dx x x' K C; eapply base_evolves; [exact K | apply (kept_ev eigs); eapply kept_move; exact C]).
  assert (IB : forall x, I x -> I (bookkeep_state P x)) by (intros x K; eapply base_evolves; [exact K | apply (kept_ev eigs); apply kept_book]).
  assert (I0 : I r) by (apply base_list_refl; auto).
  assert (VE : forall x x' e, I x -> calculate_error P x = Some (x', e) -> option_map fst (estimate_all eigs tr (pr_planes r)) = e).
  { intros x x' e K C. cbn in C. unfold sh_calculate_error, sh_current_error in C. rewrite (estimate_base tr _ _ K). destruct (estimate_all eigs tr (pr_planes x)) as [[v l]|]; [|discriminate]. injection C as _ <-. reflexivity. }
  unfold sh_run_optimizer. fold P. destruct (opt_solve P inv m mx (1 / 100) (opt_new r (1 / 10000) (1 / 100000))) as [[o c]|] eqn:E; [|discriminate]. intros H. injection H as <-. cbn [with_iters pr_iters snd fst].
  unfold opt_solve in E. destruct m; unfold opt_nr, opt_lm in E; cbn [o_x o_max opt_new o_tol o_lambda] in E; (destruct (calculate_error P r) as [[x0 e0]|] eqn:E0; [|discriminate]); pose proof (VE _ _ _ I0 E0) as V0; apply IE in E0; auto.
  - cbn [nr_loop] in E. match type of E with match ?t with _ => _ end = _ => destruct t as [o1|] eqn:E1; [|discriminate] end.
    pose proof E1 as T1. apply (oi_iteration P inv I IG IU) in E1; [|exact E0]. destruct (calculate_error P (o_x o1)) as [[x2 c2]|] eqn:E2; [|discriminate]. pose proof (VE _ _ _ E1 E2) as V2.
    cbv zeta in E. cbn [with_x o_tol o_max] in E. assert (T : o_tol o1 = 1 / 10000).
    { unfold one_iteration in T1. destruct (calculate_gradient_hessian P _) as [[? [[? ?] ?]]|]; [|discriminate]. cbv zeta in T1. destruct (update_state P _ _); [|discriminate]. injection T1 as <-. reflexivity. }
    rewrite T in E. rewrite <- V0, <- V2 in E. destruct (option_map fst _) as [v|]; cbn [go_on andb] in E; [|injection E as _ <-; reflexivity].
    unfold Rltb in E. destruct (Rlt_dec (1 / 10000) (Rabs (v - v))) as [L|_]; [|injection E as _ <-; reflexivity]. exfalso. replace (v - v) with 0 in L by ring. rewrite Rabs_R0 in L. lra.
  - cbn [lm_steps] in E. match type of E with match ?t with _ => _ end = _ => destruct t as [[[o1 p1] oc]|] eqn:E1; [|discriminate] end. unfold lm_pass in E1.
    match type of E1 with match ?t with _ => _ end = _ => destruct t as [o2|] eqn:T1; [|discriminate] end. pose proof T1 as T2. apply (oi_iteration P inv I IG IU) in T1; [|apply IB; exact E0].
    destruct (calculate_error P (o_x o2)) as [[x2 c2]|] eqn:E2; [|discriminate]. pose proof (VE _ _ _ T1 E2) as V2. cbv zeta in E1. cbn [with_x o_tol] in E1. assert (T : o_tol o2 = 1 / 10000).
    { unfold one_iteration in T2. destruct (calculate_gradient_hessian P _) as [[? [[? ?] ?]]|]; [|discriminate]. cbv zeta in T2. destruct (update_state P _ _); [|discriminate]. injection T2 as <-. reflexivity. }
    rewrite T in E1. assert (VS : exists v, e0 = Some v /\ c2 = Some v).
    { cbn in E2. unfold sh_calculate_error in E2. destruct (sh_current_error _ _ _) as [[v y]|]; [|discriminate]. injection E2 as _ <-. exists v. split; congruence. }
    destruct VS as (v & -> & ->). unfold decide, Rltb in E1. destruct (Rlt_dec (v - v) 0); [lra|]. destruct (Rlt_dec (v - v) (1 / 10000)); [|lra]. injection E1 as _ _ <-. injection E as _ <-. reflexivity.
  - cbn [lm_steps] in E. match type of E with match ?t with _ => _ end = _ => destruct t as [[[o1 p1] oc]|] eqn:E1; [|discriminate] end. unfold lm_pass in E1.
    match type of E1 with match ?t with _ => _ end = _ => destruct t as [o2|] eqn:T1; [|discriminate] end. pose proof T1 as T2. apply (oi_iteration P inv I IG IU) in T1; [|apply IB; exact E0].
    destruct (calculate_error P (o_x o2)) as [[x2 c2]|] eqn:E2; [|discriminate]. pose proof (VE _ _ _ T1 E2) as V2. cbv zeta in E1. cbn [with_x o_tol] in E1. assert (T : o_tol o2 = 1 / 10000).
    { unfold one_iteration in T2. destruct (calculate_gradient_hessian P _) as [[? [[? ?] ?]]|]; [|discriminate]. cbv zeta in T2. destruct (update_state P _ _); [|discriminate]. injection T2 as <-. reflexivity. }
    rewrite T in E1. assert (VS : exists v, e0 = Some v /\ c2 = Some v).
    { cbn in E2. unfold sh_calculate_error in E2. destruct (sh_current_error _ _ _) as [[v y]|]; [|discriminate]. injection E2 as _ <-. exists v. split; congruence. }
    destruct VS as (v & -> & ->). unfold decide, Rltb in E1. destruct (Rlt_dec (v - v) 0); [lra|]. destruct (Rlt_dec (v - v) (1 / 10000)); [|lra]. injection E1 as _ _ <-. injection E as _ <-. reflexivity.
Qed.
End More.
