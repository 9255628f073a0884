(** The state of a PlaneRegistration after a program, from its history. *)
Require Import Reals List Arith Lia Lra Psatz Bool.
From Verif Require Import Lin LinFacts SO3 SE3 SpecGeom SE3Alg Factors3DLn RegistrationProofs Sums Registration SpecRegistration ArunProofs Optimizer OptimizerProofs Planes SpecPlanes PlanesProofs PlanesMore SpecPlaneReg PlaneRegProofs.
Import ListNotations.
Local Open Scope R_scope.

(** p is what a plane program with the same pushes and evaluations leaves *)
Definition plane_like (eigs : M4 -> eigen4) (n : nat) (ops : list plane_op) (p : plane) : Prop :=
  exists pops, no_clear pops /\ plane_run eigs pops (plane_new n) = Some p /\ (forall t, pushed pops t = pushed ops t) /\
  count_pushed n pops = count_pushed n ops /\ snapshot n (rev pops) = snapshot n (rev ops).
Lemma like_run eigs n ops p : no_clear ops -> plane_run eigs ops (plane_new n) = Some p -> plane_like eigs n ops p.
Proof. intros N E. exists ops. auto. Qed.
Lemma like_used eigs n ops p : plane_like eigs n ops p -> S_used p = map matrix_S (used n ops).
Proof.
  intros (q & N & E & P & C & S). rewrite (run_used eigs n q p N E). f_equal. unfold used. rewrite S, (all_pushed_ext n q ops P). reflexivity.
Qed.
Lemma like_shape eigs n ops p : plane_like eigs n ops p -> shape n (all_pushed n ops) p /\ pl_number p = count_pushed n ops.
Proof.
  intros (q & N & E & P & C & S). destruct (run_shape eigs n q p N E) as [SH NU]. rewrite (all_pushed_ext n q ops P) in SH. rewrite C in NU. auto.
Qed.
Lemma no_clear_app a b : no_clear (a ++ b) <-> no_clear a /\ no_clear b.
Proof. unfold no_clear. split; [intros H; split; intros I; apply H, in_or_app; auto | intros [A B] I; apply in_app_or in I; tauto]. Qed.
Lemma like_push eigs n ops p x t p' : plane_like eigs n ops p -> push_back_point x t p = Some p' -> plane_like eigs n (ops ++ [Push x t]) p'.
Proof.
  intros (q & N & E & P & C & S) H. exists (q ++ [Push x t]). split; [apply no_clear_app; split; auto; intros [I|[]]; discriminate|].
  split; [rewrite run_app, E; cbn; rewrite H; auto|]. split; [intros u; rewrite !pushed_app, P; auto|]. split; [rewrite !count_app, C; auto|].
  rewrite !rev_app_distr. cbn [rev app snapshot]. exact S.
Qed.
Lemma snapshot_estimate n ops tr : snapshot n (rev (ops ++ [Estimate tr])) = Some (used n ops).
Proof. rewrite rev_app_distr. cbn [rev app snapshot]. unfold used. rewrite rev_involutive. destruct (snapshot n (rev ops)); auto. Qed.
Lemma pushed_quiet ext t : Forall quiet ext -> pushed ext t = [].
Proof. induction 1 as [|o l Q F IH]; auto. cbn [pushed flat_map]. destruct o as [? ?|[]|?|? ?|?| |]; cbn in Q; try tauto; exact IH. Qed.
Lemma count_quiet n ext : Forall quiet ext -> count_pushed n ext = 0%nat.
Proof. induction 1 as [|o l Q F IH]; auto. unfold count_pushed in *. cbn [filter]. destruct o as [? ?|[]|?|? ?|?| |]; cbn in Q; try tauto; exact IH. Qed.
Lemma no_clear_quiet ext : Forall quiet ext -> no_clear ext.
Proof. intros F I. rewrite Forall_forall in F. exact (F _ I). Qed.
Lemma snapshot_quiet n s ext r : Forall quiet ext -> snapshot n r = Some s -> snapshot n (ext ++ r) = Some s.
Proof.
  induction 1 as [|o l Q F IH]; auto. intros H. cbn [app snapshot]. destruct o as [? ?|[]|?|? ?|?| |]; cbn in Q; try tauto; rewrite IH by auto; reflexivity.
Qed.
Lemma like_quiet eigs n ops p ext p' s : plane_like eigs n ops p -> snapshot n (rev ops) = Some s -> Forall quiet ext ->
  plane_run eigs ext p = Some p' -> plane_like eigs n ops p'.
Proof.
  intros (q & N & E & P & C & S) SN F R. exists (q ++ ext). split; [apply no_clear_app; split; auto; apply no_clear_quiet; auto|].
  split; [rewrite run_app, E; auto|]. split; [intros u; rewrite pushed_app, (pushed_quiet ext) by auto; rewrite app_nil_r; auto|].
  split; [rewrite count_app, (count_quiet n ext) by auto; lia|]. rewrite rev_app_distr, SN. apply snapshot_quiet; [apply Forall_rev; auto | congruence].
Qed.
Lemma like_estimate eigs n ops p tr e p' : plane_like eigs n ops p -> estimate_plane eigs tr p = Some (e, p') -> plane_like eigs n (ops ++ [Estimate []]) p'.
Proof.
  intros (q & N & E & P & C & S) H. exists (q ++ [Estimate tr]). split; [apply no_clear_app; split; auto; intros [I|[]]; discriminate|].
  split; [rewrite run_app, E; cbn [plane_run plane_step]; rewrite H; auto|]. split; [intros u; rewrite !pushed_app, P; auto|]. split; [rewrite !count_app, C; auto|].
  rewrite !snapshot_estimate. unfold used. rewrite S, (all_pushed_ext n q ops P). reflexivity.
Qed.

Notation entry := (nat * (nat * list plane_op))%type (only parsing).
Definition same_plane (eigs : M4 -> eigen4) (a : entry) (q : nat * plane) : Prop := fst a = fst q /\ plane_like eigs (fst (snd a)) (snd (snd a)) (snd q).
Definition tracked (eigs : M4 -> eigen4) (h : nat * list entry) (r : preg) : Prop :=
  pr_nposes r = fst h /\ Forall2 (same_plane eigs) (snd h) (pr_planes r).
Lemma known_exists eigs i h l : Forall2 (same_plane eigs) h l -> existsb (fun q => Nat.eqb (fst q) i) l = known i h.
Proof. unfold known. induction 1 as [|a q h l (E & _) F IH]; cbn; auto. rewrite E, IH. auto. Qed.
Lemma tracked_register eigs h r i n ops p : tracked eigs h r -> plane_like eigs n ops p -> tracked eigs (fst h, register i n ops (snd h)) (add_plane i p r).
Proof.
  intros [A B] L. unfold add_plane, emplace, register. rewrite (known_exists eigs i _ _ B). destruct (known i (snd h)); split; cbn; auto.
  apply Forall2_app; auto. constructor; auto. split; auto.
Qed.
Lemma extend_none o h i : (forall q, In q h -> fst q <> i) -> extend (Nat.eqb i) o h = h.
Proof.
  intros H. unfold extend. rewrite <- (map_id h) at 2. apply map_ext_in. intros q Q. specialize (H q Q). destruct (Nat.eqb_spec i (fst q)); auto. congruence.
Qed.
Lemma tracked_push eigs i t x h l l' : Forall2 (same_plane eigs) h l -> NoDup (map fst h) -> push_in i t x l = Some l' ->
  Forall2 (same_plane eigs) (extend (Nat.eqb i) (Push x t) h) l'.
Proof.
  intros F. revert l'. induction F as [|[j [n ops]] [j' p] h l (E & L) F IH]; intros l' ND H; cbn in H; [discriminate|]. cbn in E, L. subst j'.
  cbn in ND. apply NoDup_cons_iff in ND. destruct ND as [NI ND].
  change (extend (Nat.eqb i) (Push x t) ((j, (n, ops)) :: h)) with ((if Nat.eqb i j then (j, (n, ops ++ [Push x t])) else (j, (n, ops))) :: extend (Nat.eqb i) (Push x t) h).
  destruct (Nat.eqb_spec j i) as [-> | N].
  - destruct (push_back_point x t p) as [p'|] eqn:EP; [|discriminate]. injection H as <-. rewrite Nat.eqb_refl. rewrite extend_none.
    + constructor; auto. split; auto. cbn. eapply like_push; eauto.
    + intros q Q Z. apply NI. rewrite <- Z. apply in_map. auto.
  - destruct (push_in i t x l) as [l1|]; [|discriminate]. injection H as <-. destruct (Nat.eqb_spec i j); [congruence|]. constructor; auto. split; auto.
Qed.
Lemma tracked_estimate eigs tr h l e l' : Forall2 (same_plane eigs) h l -> estimate_all eigs tr l = Some (e, l') ->
  Forall2 (same_plane eigs) (extend (fun _ => true) (Estimate []) h) l'.
Proof.
  intros F. revert e l'. induction F as [|[j [n ops]] [j' p] h l (E & L) F IH]; intros e l' H; cbn in H; [injection H as _ <-; constructor|]. cbn in E, L. subst j'.
  destruct (estimate_plane eigs tr p) as [[e1 p1]|] eqn:E1; [|discriminate]. destruct (estimate_all eigs tr l) as [[s l1]|]; [|discriminate]. injection H as _ <-.
  constructor; [|eapply IH; eauto]. split; auto. cbn. eapply like_estimate; eauto.
Qed.
Lemma tracked_quiet eigs h l l' : Forall2 (same_plane eigs) (extend (fun _ => true) (Estimate []) h) l -> evolves eigs l l' ->
  Forall2 (same_plane eigs) (extend (fun _ => true) (Estimate []) h) l'.
Proof.
  revert l l'. induction h as [|[j [n ops]] h IH]; intros l l' F V; inversion F as [|a q ? l1 (E & L) F1]; subst; inversion V as [|? q' ? l2 (E2 & ext & Q & R) V1]; subst; [constructor|].
  constructor; [|eapply IH; eauto]. split; [cbn in *; congruence|]. cbn in *. eapply like_quiet; eauto. apply snapshot_estimate.
Qed.
Lemma extend_ids sel o h : map fst (extend sel o h) = map fst h.
Proof. unfold extend. rewrite map_map. apply map_ext. intros q. destruct (sel (fst q)); auto. Qed.
Lemma note_nodup h o : NoDup (map fst (snd h)) -> NoDup (map fst (snd (note h o))).
Proof.
  intros N. destruct o as [a b|i|i n ops|i t x| | | | T|m s]; cbn; auto; try (rewrite extend_ids; auto; fail); [constructor | |];
    unfold register; destruct (known i (snd h)) eqn:K; auto; rewrite map_app; cbn; (apply NoDup_rev in N; rewrite <- (rev_involutive (map fst (snd h) ++ [i])); apply NoDup_rev; rewrite rev_app_distr; cbn; constructor; auto;
    intros I; apply in_rev in I; apply in_map_iff in I; destruct I as (q & E & Q); unfold known in K; apply Bool.not_true_iff_false in K; apply K; apply existsb_exists; exists q; split; auto; apply Nat.eqb_eq; auto).
Qed.
Lemma history_snoc ops o : history (ops ++ [o]) = note (history ops) o.
Proof. unfold history. rewrite fold_left_app. reflexivity. Qed.
Lemma history_nodup ops : NoDup (map fst (planes_of ops)).
Proof. unfold planes_of. induction ops as [|o ops IH] using rev_ind; [constructor|]. rewrite history_snoc. apply note_nodup. auto. Qed.
Lemma reg_run_app k a b r : reg_run k (a ++ b) r = match reg_run k a r with None => None | Some q => reg_run k b q end.
Proof. revert r. induction a as [|o a IH]; intros r; cbn; auto. destruct (reg_step k o r); auto. Qed.
Lemma reg_run_snoc k a o r r' : reg_run k (a ++ [o]) r = Some r' -> exists q, reg_run k a r = Some q /\ reg_step k o q = Some r'.
Proof. rewrite reg_run_app. destruct (reg_run k a r) as [q|]; [|discriminate]. cbn. destruct (reg_step k o q) eqn:E; [|discriminate]. intros H. injection H as <-. eauto. Qed.
(** ** After any program *)
Record after (k : kernels) (h : nat * list entry) (r : preg) : Prop := {
  af_tracked : tracked (k_eigs k) h r;
  af_len : length (pr_traj r) = pr_nposes r \/ (pr_nposes r = 0%nat /\ length (pr_traj r) = 8%nat);
  af_hom : Forall hom4 (pr_book r :: pr_traj r);
  af_first : (2 <= length (pr_traj r))%nat -> nth_error (pr_traj r) 0 = Some m4id }.
Lemma hom_id4 : hom4 m4id. Proof. split; reflexivity. Qed.
Lemma repeat_hom n : Forall hom4 (repeat m4id n).
Proof. induction n; constructor; auto using hom_id4. Qed.
Lemma repeat_first n : (2 <= length (repeat m4id n))%nat -> nth_error (repeat m4id n) 0 = Some m4id.
Proof. destruct n; cbn; auto. lia. Qed.
Lemma after_frame k h h' r r' : after k h r -> tracked (k_eigs k) h' r' -> pr_traj r' = pr_traj r -> pr_book r' = pr_book r -> pr_nposes r' = pr_nposes r -> after k h' r'.
Proof. intros [A B C D] T E1 E2 E3. constructor; auto; rewrite ?E1, ?E2, ?E3; auto. Qed.
Lemma after_kept k h h' r r' : after k h r -> tracked (k_eigs k) h' r' -> kept (k_eigs k) r r' -> after k h' r'.
Proof.
  intros [A B C D] T [K1 K2 K3 K4 K5]. constructor; auto.
  - rewrite K1, K3. auto.
  - intros H. rewrite K4 by congruence. apply D. congruence.
Qed.
Lemma set_last_spec T r r' : set_last_pose T r = Some r' -> r' = r \/ (2 <= pr_nposes r <= length (pr_traj r))%nat /\ r' = with_traj r (interpolate (pr_nposes r) (se3_ln_vee T) 1 (pr_nposes r) (pr_traj r)).
Proof.
  unfold set_last_pose. destruct (Nat.leb_spec (pr_nposes r) 1); [intros E; injection E as <-; auto|]. destruct (Nat.leb_spec (pr_nposes r) (length (pr_traj r))); [|discriminate].
  intros E. injection E as <-. right. split; [lia | reflexivity].
Qed.
Lemma kept_last eigs T r r' : set_last_pose T r = Some r' -> kept eigs r r'.
Proof.
  intros H. apply set_last_spec in H. destruct H as [-> | (H & ->)]; [apply kept_refl|]. apply kept_traj.
  - apply interpolate_length.
  - intros _. apply interpolate_out. lia.
  - intros F. apply interpolate_hom. inversion F; auto.
Qed.
Lemma after_run k ops r : Forall reg_ok ops -> reg_run k ops preg_new = Some r -> after k (history ops) r.
Proof.
  revert r. induction ops as [|o ops IH] using rev_ind; intros r F E.
  - injection E as <-. constructor; cbn; auto; [split; [reflexivity | constructor] | repeat constructor].
  - apply reg_run_snoc in E. destruct E as (q & E1 & E2). apply Forall_app in F. destruct F as [F FO]. apply Forall_inv in FO. specialize (IH q F E1). rewrite history_snoc.
    pose proof (history_nodup ops) as ND. unfold planes_of in ND. pose proof (af_tracked _ _ _ IH) as TK. pose proof TK as [TA TB].
    destruct o as [a b|i|i n pops|i t x| | | | T|m s]; cbn [reg_step] in E2; cbn [note].
    + injection E2 as <-. constructor; cbn.
      * split; [reflexivity | constructor].
      * left. apply repeat_length.
      * constructor; [pose proof (af_hom _ _ _ IH) as HM; inversion HM; auto | apply repeat_hom].
      * apply repeat_first.
    + injection E2 as <-. apply (after_frame k (history ops) _ q); auto. unfold add_new_plane. rewrite TA. apply tracked_register; auto. apply like_run; [intros [] | reflexivity].
    + destruct (plane_run (k_eigs k) pops (plane_new n)) as [p|] eqn:EP; [|discriminate]. injection E2 as <-. apply (after_frame k (history ops) _ q); auto. apply tracked_register; auto. apply like_run; auto.
    + unfold plane_push_back_point in E2. destruct (push_in i t x (pr_planes q)) as [l|] eqn:EP; [|discriminate]. injection E2 as <-. apply (after_frame k (history ops) _ q); auto. split; cbn; auto. eapply tracked_push; eauto.
    + destruct (get_current_error (k_eigs k) q) as [[e r1]|] eqn:EP; [|discriminate]. injection E2 as <-. cbn. pose proof (kept_error _ _ _ _ EP) as (K & _). apply (after_kept k (history ops) _ q); auto.
      split; cbn; [rewrite (k_n _ _ _ K); auto|]. unfold get_current_error in EP. destruct (estimate_all _ _ _) as [[e2 l2]|] eqn:EA; [|discriminate]. injection EP as _ <-. cbn. eapply tracked_estimate; eauto.
    + injection E2 as <-. apply (after_frame k (history ops) _ q); auto.
    + assert (ER : r = reset_solution q) by congruence. subst r. apply Build_after.
      * split; [exact TA | exact TB].
      * left. apply repeat_length.
      * constructor; [pose proof (af_hom _ _ _ IH) as HM; inversion HM; auto | apply repeat_hom].
      * apply repeat_first.
    + pose proof (kept_last (k_eigs k) _ _ _ E2) as K. apply (after_kept k (history ops) _ q); auto. apply set_last_spec in E2. destruct E2 as [E2 | (_ & E2)]; rewrite E2; [exact TK | split; [exact TA | exact TB]].
    + destruct (preg_solve _ _ _ _ _ _) as [[c r1]|] eqn:EP; [|discriminate]. injection E2 as <-. cbn. apply kept_solve in EP. destruct EP as (e & r0 & E0 & K).
      pose proof (kept_error _ _ _ _ E0) as (K0 & _). apply (after_kept k (history ops) _ q); auto; [|eapply kept_trans; eauto]. split; cbn; [rewrite (k_n _ _ _ K), (k_n _ _ _ K0); auto|].
      unfold get_current_error in E0. destruct (estimate_all _ _ _) as [[e2 l2]|] eqn:EA; [|discriminate]. injection E0 as _ <-. eapply tracked_quiet; [|exact (k_ev _ _ _ K)]. cbn. eapply tracked_estimate; eauto.
Qed.

(** ** What can be observed *)
Lemma total_sum l n : fold_left (fun n q => (n + get_total_number_points (snd q))%nat) l n = (n + list_sum (map (fun q : nat * plane => pl_number (snd q)) l))%nat.
Proof. revert n. induction l as [|q l IH]; intros n; [cbn; lia|]. cbn [fold_left map]. rewrite IH. unfold get_total_number_points, list_sum. cbn [fold_right]. lia. Qed.
Lemma counted eigs h l : Forall2 (same_plane eigs) h l -> total_points l = list_sum (map (fun q : entry => count_pushed (fst (snd q)) (snd (snd q))) h).
Proof.
  intros F. unfold total_points. rewrite total_sum. cbn [Nat.add]. induction F as [|a q h l (E & L) F IH]; [reflexivity|]. cbn [map]. unfold list_sum in *. cbn [fold_right]. cbn [Nat.add] in IH. rewrite IH. destruct (like_shape _ _ _ _ L) as [_ ->]. reflexivity.
Qed.
Lemma cloud_at eigs t h l : Forall2 (same_plane eigs) h l -> Forall (fun q : entry => (t < fst (snd q))%nat) h ->
  all_some (map (fun q => get_points t (snd q)) l) = Some (map (fun q : entry => pushed (snd (snd q)) t) h).
Proof.
  induction 1 as [|[i [n ops]] [j p] h l (E & L) F IH]; intros HT; cbn [map all_some]; auto. inversion HT as [|? ? Ht HT1]; subst. cbn [fst snd] in *. rewrite (IH HT1).
  destruct (like_shape _ _ _ _ L) as [[A B C D] _]. unfold get_points. rewrite A, B. replace (n <=? t)%nat with false by (symmetry; apply Nat.leb_gt; auto). rewrite all_pushed_nth by auto. reflexivity.
Qed.
Lemma estimated_all eigs tr h l : Forall2 (same_plane eigs) h l -> fits (length tr) h -> exists e l', estimate_all eigs tr l = Some (e, l').
Proof.
  induction 1 as [|[i [n ops]] [j p] h l (E & L) F IH]; intros HF; [cbn; eauto|]. inversion HF; subst. cbn in *. destruct (IH H2) as (e & l' & E2).
  destruct (like_shape _ _ _ _ L) as [SH _]. destruct (estimate_spec eigs n _ p tr SH H1) as (p' & E1 & _). rewrite E1, E2. eauto.
Qed.
Lemma estimated_fits eigs tr h l e l' : Forall2 (same_plane eigs) h l -> estimate_all eigs tr l = Some (e, l') -> fits (length tr) h.
Proof.
  intros F. revert e l'. induction F as [|[i [n ops]] [j p] h l (E & L) F IH]; intros e l' H; [constructor|]. cbn in H.
  destruct (estimate_plane eigs tr p) as [[e1 p1]|] eqn:E1; [|discriminate]. destruct (estimate_all eigs tr l) as [[s l1]|]; [|discriminate]. constructor; [|eapply IH; eauto].
  cbn in *. destruct (Nat.le_gt_cases n (length tr)) as [|G]; auto. destruct (like_shape _ _ _ _ L) as [SH _]. rewrite (estimate_short eigs n _ p tr SH G) in E1. discriminate.
Qed.
Lemma estimated_error eigs tr h l e l' : (forall Q, m4tr Q = Q -> exact4 eigs Q) -> Forall hom4 tr -> Forall2 (same_plane eigs) h l ->
  estimate_all eigs tr l = Some (e, l') -> total_error tr h e.
Proof.
  intros X HM F. revert e l'. induction F as [|[i [n ops]] [j p] h l (E & L) F IH]; intros e l' H; cbn in H; [injection H as <- _; constructor|].
  destruct (estimate_plane eigs tr p) as [[e1 p1]|] eqn:E1; [|discriminate]. destruct (estimate_all eigs tr l) as [[s l1]|] eqn:E2; [|discriminate]. injection H as <- _. cbn in L.
  constructor; [|eapply IH; eauto]. destruct (like_shape _ _ _ _ L) as [SH _]. destruct (Nat.le_gt_cases n (length tr)) as [G|G]; [|rewrite (estimate_short eigs n _ p tr SH G) in E1; discriminate].
  destruct (estimate_spec eigs n _ p tr SH G) as (p' & E3 & _). rewrite E3 in E1. injection E1 as <- _. rewrite (acc_scatter tr p (used n ops) (like_used _ _ _ _ L) HM).
  destruct (eigen_least _ _ (X _ (scatter_sym tr (used n ops)))) as [[(v & A & B) C] _]. split; [exists v; rewrite <- quad4_scatter; auto | intros u U; rewrite <- quad4_scatter; auto].
Qed.
Lemma total_unique tr h e e' : total_error tr h e -> total_error tr h e' -> e = e'.
Proof.
  intros H. revert e'. induction H as [|i n ops h e s L T IH]; intros e' H; inversion H; subst; auto. f_equal; auto. eapply least_unique; eauto.
Qed.

(** ** Errors along a solve *)
Definition well (l : list (nat * plane)) : Prop := Forall (fun q => exists n pts, shape n pts (snd q)) l.
Definition ecost (eigs : M4 -> eigen4) (tr : list M4) (l : list (nat * plane)) : R := lsum l (fun q => e4_val (eigs (acc_of tr (snd q)))).
Lemma quiet_step eigs o n pts p p' : shape n pts p -> quiet o -> plane_step eigs o p = Some p' -> shape n pts p' /\ S_used p' = S_used p.
Proof.
  intros SH Q E. assert (NC : o <> Clear) by (intros ->; exact Q). destruct (step_shape eigs n pts p o p' SH NC E) as [SH' _].
  destruct o as [x t|[]|tr|tr t|t| |]; cbn in Q; try tauto; cbn in SH'; split; auto; cbn in E.
  - destruct (calc_S_false n pts p SH) as (p1 & E1 & _ & _ & _ & _ & _ & _ & U & _). rewrite E1 in E. injection E as <-. auto.
  - destruct (Nat.le_gt_cases n (length tr)) as [G|G]; [|rewrite (estimate_short eigs n pts p tr SH G) in E; discriminate].
    destruct (estimate_spec eigs n pts p tr SH G) as (p1 & E1 & _ & _ & U & _). rewrite E1 in E. injection E as <-. auto.
  - unfold calculate_gradient in E. destruct (nth_error (pl_Q p) t); [|discriminate]. destruct (pl_est p); [|discriminate]. injection E as <-. reflexivity.
Qed.
Lemma quiet_run eigs ext n pts p p' : shape n pts p -> Forall quiet ext -> plane_run eigs ext p = Some p' -> shape n pts p' /\ S_used p' = S_used p.
Proof.
  intros SH F. revert p SH. induction F as [|o ext Q F IH]; intros p SH E; cbn in E; [injection E as <-; auto|].
  destruct (plane_step eigs o p) as [p1|] eqn:E1; [|discriminate]. destruct (quiet_step eigs o n pts p p1 SH Q E1) as [S1 U1]. destruct (IH p1 S1 E) as [S2 U2]. split; auto. congruence.
Qed.
Lemma evolves_cost eigs l l' : evolves eigs l l' -> well l -> well l' /\ forall tr, ecost eigs tr l' = ecost eigs tr l.
Proof.
  unfold ecost. induction 1 as [|q q' l l' (E & ext & F & R) V IH]; intros W; [split; auto|]. inversion W as [|? ? (n & pts & SH) W1]; subst. destruct (IH W1) as [W2 C].
  destruct (quiet_run eigs ext n pts _ _ SH F R) as [SH' U]. split; [constructor; eauto|]. intros tr. rewrite !lsum_cons, C. unfold acc_of. rewrite U. reflexivity.
Qed.
Lemma estimate_cost eigs tr l e l' : well l -> estimate_all eigs tr l = Some (e, l') -> e = ecost eigs tr l.
Proof.
  intros W. unfold ecost. revert e l'. induction W as [|[i p] l (n & pts & SH) W IH]; intros e l' H; cbn in H; [injection H as <- _; reflexivity|].
  destruct (estimate_plane eigs tr p) as [[e1 p1]|] eqn:E1; [|discriminate]. destruct (estimate_all eigs tr l) as [[s l1]|] eqn:E2; [|discriminate]. injection H as <- _. rewrite lsum_cons. f_equal; [|eapply IH; eauto].
  cbn in *. destruct (Nat.le_gt_cases n (length tr)) as [G|G]; [|rewrite (estimate_short eigs n pts p tr SH G) in E1; discriminate].
  destruct (estimate_spec eigs n pts p tr SH G) as (p2 & E3 & _). rewrite E3 in E1. injection E1 as <- _. reflexivity.
Qed.
(** the trajectory with the last pose T and the path to it *)
Definition path (n : nat) (T : M4) (tr : list M4) : list M4 := interpolate n (se3_ln_vee T) 1 (n - 1) (set_back T tr).
Lemma path_nth n T tr t : length tr = n -> (t < n)%nat -> nth_error (path n T tr) t =
  if Nat.eqb t (n - 1) then Some T else if Nat.eqb t 0 then nth_error tr 0 else Some (interpolated n (se3_ln_vee T) t).
Proof.
  intros L H. unfold path. destruct (Nat.eqb_spec t (n - 1)) as [-> | N].
  - rewrite interpolate_out by lia. unfold set_back. rewrite L. apply set_at_same. lia.
  - destruct (Nat.eqb_spec t 0) as [-> | N0].
    + rewrite interpolate_out by lia. unfold set_back. apply set_at_other. lia.
    + destruct (nth_error (set_back T tr) t) as [T0|] eqn:E; [|apply nth_error_None in E; rewrite set_back_length in E; lia].
      rewrite (interpolate_nth _ _ _ _ _ _ _ E). replace (1 <=? t)%nat with true by (symmetry; apply Nat.leb_le; lia). replace (t <? n - 1)%nat with true by (symmetry; apply Nat.ltb_lt; lia). reflexivity.
Qed.
Lemma path_length n T tr : length (path n T tr) = length tr.
Proof. unfold path. rewrite interpolate_length, set_back_length. reflexivity. Qed.
Lemma path_ext n T tr tr' : (0 < n)%nat -> length tr = n -> length tr' = n -> ((2 <= n)%nat -> nth_error tr 0 = nth_error tr' 0) -> path n T tr = path n T tr'.
Proof.
  intros N L L' E. apply nth_error_ext. intros t. destruct (Nat.lt_ge_cases t n) as [H | H].
  - rewrite !path_nth by auto. destruct (Nat.eqb_spec t (n - 1)); auto. destruct (Nat.eqb_spec t 0); auto. apply E. lia.
  - transitivity (@None M4); [|symmetry]; apply nth_error_None; rewrite path_length; lia.
Qed.
(** the trajectory is the path to its last pose *)
Definition on_line (n : nat) (tr : list M4) : Prop := exists T, nth_error tr (n - 1) = Some T /\ tr = path n T tr.
Definition lined (n : nat) (r : preg) : Prop := well (pr_planes r) /\ pr_nposes r = n /\ length (pr_traj r) = n /\ on_line n (pr_traj r).
Lemma path_line n T tr : (0 < n)%nat -> length tr = n -> on_line n (path n T tr).
Proof.
  intros N L. exists T. split.
  - rewrite path_nth by lia. rewrite Nat.eqb_refl. reflexivity.
  - apply path_ext; rewrite ?path_length; auto. intros H. rewrite path_nth by lia. destruct (Nat.eqb_spec 0 (n - 1)); [lia|]. reflexivity.
Qed.
Lemma middle_path n T tr : (0 < n)%nat -> length tr = n -> interpolate_middle n (se3_ln_vee T) (set_back T tr) = Some (path n T tr).
Proof.
  intros N L. unfold interpolate_middle. destruct (Nat.eqb_spec n 0); [lia|]. rewrite set_back_length. replace (n - 1 <=? length tr)%nat with true by (symmetry; apply Nat.leb_le; lia). reflexivity.
Qed.
Lemma restore_spec eigs n r : (0 < n)%nat -> pr_nposes r = n -> length (pr_traj r) = n -> well (pr_planes r) ->
  pr_traj (pr_restore eigs r) = path n (pr_book r) (pr_traj r) /\ pr_nposes (pr_restore eigs r) = n /\ pr_book (pr_restore eigs r) = pr_book r /\
  well (pr_planes (pr_restore eigs r)) /\ forall tr, ecost eigs tr (pr_planes (pr_restore eigs r)) = ecost eigs tr (pr_planes r).
Proof.
  intros N NP L W. unfold pr_restore. rewrite NP, middle_path by auto. destruct (get_current_error eigs _) as [[e r1]|] eqn:E; [|cbn; auto].
  pose proof (kept_error _ _ _ _ E) as ([K1 K2 _ _ _] & K3 & K4). rewrite K1, K3, K4. cbn in *. destruct (evolves_cost _ _ _ K2 W) as [W' C]. auto.
Qed.
Lemma move_spec n dx r r' : (0 < n)%nat -> pr_nposes r = n -> length (pr_traj r) = n -> move_last dx r = Some r' ->
  exists T, r' = with_traj r (path n T (pr_traj r)).
Proof.
  intros N NP L. unfold move_last. destruct (last_pose (pr_traj r)) as [T|]; [|discriminate]. rewrite NP, middle_path by auto. intros H. injection H as <-. eauto.
Qed.
Lemma last_length n tr : length tr = n -> last_pose tr = nth_error tr (n - 1).
Proof. intros <-. reflexivity. Qed.
Lemma plane_lawful eigs n : (0 < n)%nat -> lawful (plane_problem eigs) (lined n) (fun r => Some (ecost eigs (pr_traj r) (pr_planes r))).
Proof.
  intros N.
  assert (RS : forall r, lined n r -> pr_traj (pr_restore eigs r) = path n (pr_book r) (pr_traj r) /\ pr_nposes (pr_restore eigs r) = n /\ pr_book (pr_restore eigs r) = pr_book r /\
    well (pr_planes (pr_restore eigs r)) /\ forall tr, ecost eigs tr (pr_planes (pr_restore eigs r)) = ecost eigs tr (pr_planes r)).
  { intros r (W & NP & L & _). apply restore_spec; auto. }
  assert (EV : forall r r', lined n r -> evolves eigs (pr_planes r) (pr_planes r') -> pr_traj r' = pr_traj r -> pr_book r' = pr_book r -> pr_nposes r' = pr_nposes r ->
     lined n r' /\ ecost eigs (pr_traj r') (pr_planes r') = ecost eigs (pr_traj r) (pr_planes r) /\
     ecost eigs (pr_traj (pr_restore eigs r')) (pr_planes (pr_restore eigs r')) = ecost eigs (pr_traj (pr_restore eigs r)) (pr_planes (pr_restore eigs r))).
  { intros r r' HL V E1 E2 E3. pose proof HL as (W & NP & L & O). destruct (evolves_cost _ _ _ V W) as [W' C]. assert (HL' : lined n r') by (unfold lined; rewrite E1, E3; auto).
    split; auto. rewrite E1, C. split; auto. destruct (RS r HL) as (A & _ & _ & _ & D). destruct (RS r' HL') as (A' & _ & _ & _ & D'). rewrite A, A', D, D', C, E1, E2. reflexivity. }
  constructor; cbn.
  - intros r r' e HL H. unfold pr_calculate_error in H. destruct (get_current_error eigs r) as [[e1 r1]|] eqn:E; [|discriminate]. injection H as <- <-.
    pose proof (kept_error _ _ _ _ E) as ([K1 K2 _ _ _] & K3 & K4). destruct (EV r r1 HL K2 K3 K4 K1) as (A & B & C). rewrite B, C. repeat split; auto; try apply A.
    unfold get_current_error in E. destruct (estimate_all _ _ _) as [[e2 l2]|] eqn:EA; [|discriminate]. injection E as <- _. cbn. f_equal. eapply estimate_cost; eauto. apply HL.
  - intros r r' q HL H. unfold pr_gradient_hessian in H. destruct (get_current_error eigs r) as [[e1 r1]|] eqn:E; [|discriminate].
    pose proof (kept_error _ _ _ _ E) as ([K1 K2 _ _ _] & K3 & K4). destruct (gh_poses _ _ _) as [[[g h] l]|] eqn:E2; [|discriminate]. injection H as <- _.
    destruct (EV r (with_planes r1 l) HL) as (A & B & C); auto; [|rewrite C; auto]. cbn. eapply evolves_trans; [exact K2|]. eapply gh_poses_evolves; eauto.
  - intros dx r r' HL H. unfold pr_update_state in H. pose proof HL as (W & NP & L & O). destruct (move_spec n _ r r' N NP L H) as (T & ->). 
    assert (HL' : lined n (with_traj r (path n T (pr_traj r)))) by (unfold lined; cbn; rewrite path_length; repeat split; auto; apply path_line; auto).
    split; auto. destruct (RS r HL) as (A & _ & _ & _ & D). destruct (RS _ HL') as (A' & _ & _ & _ & D'). rewrite A, A', D, D'. cbn. do 2 f_equal.
    apply path_ext; rewrite ?path_length; auto. intros H2. rewrite path_nth by lia. destruct (Nat.eqb_spec 0 (n - 1)); [lia | reflexivity].
  - intros r HL. pose proof HL as (W & NP & L & (T & ET & EP)). unfold pr_bookkeep_state, get_last_pose. rewrite (last_length n _ L), ET.
    assert (HL' : lined n (with_book r T)) by (unfold lined; cbn; repeat split; auto; exists T; auto).
    split; auto. destruct (RS _ HL') as (A' & _ & _ & _ & D'). rewrite A', D'. cbn [with_book pr_book pr_traj pr_planes]. rewrite <- EP. reflexivity.
  - intros r HL. pose proof HL as (W & NP & L & O). destruct (RS r HL) as (A & B & BK & WR & D).
    assert (HL' : lined n (pr_restore eigs r)) by (unfold lined; rewrite A, B, path_length; repeat split; auto; apply path_line; auto).
    split; auto. destruct (RS _ HL') as (A' & _ & _ & _ & D'). rewrite A', D', !D, BK, A. do 2 f_equal.
    apply path_ext; rewrite ?path_length; auto. intros H2. rewrite path_nth by lia. destruct (Nat.eqb_spec 0 (n - 1)); [lia | reflexivity].
Qed.
Lemma after_well k h r : after k h r -> well (pr_planes r).
Proof.
  intros A. destruct (af_tracked _ _ _ A) as [_ F]. unfold well. induction F as [|a q hs l (E & L) F IH]; constructor; auto. destruct (like_shape _ _ _ _ L). eauto.
Qed.
Lemma after_length k h r : after k h r -> (0 < fst h)%nat -> pr_nposes r = fst h /\ length (pr_traj r) = fst h.
Proof. intros A H. destruct (af_tracked _ _ _ A) as [E _]. split; auto. destruct (af_len _ _ _ A) as [|[]]; congruence || lia. Qed.
Lemma lined_after k h r : after k h r -> (0 < fst h)%nat -> on_line (fst h) (pr_traj r) -> lined (fst h) r.
Proof. intros A H O. destruct (after_length k h r A H). split; [eapply after_well; eauto | auto]. Qed.
Lemma lined_error eigs n r e r' : lined n r -> get_current_error eigs r = Some (e, r') -> lined n r'.
Proof.
  intros (W & NP & L & O) E. pose proof (kept_error _ _ _ _ E) as ([K1 K2 _ _ _] & K3 & _). destruct (evolves_cost _ _ _ K2 W). unfold lined. rewrite K1, K3. auto.
Qed.
Lemma lined_nag eigs n r e r' : (0 < n)%nat -> lined n r -> nag_pass eigs r = Some (e, r') -> lined n r'.
Proof.
  intros N HL. unfold nag_pass. destruct (get_current_error eigs r) as [[e1 r1]|] eqn:E; [|discriminate]. apply (lined_error _ n) in E; auto. destruct E as (W & NP & L & O).
  destruct (grad_poses _ _) as [[gs l]|] eqn:G; [|discriminate]. destruct (existsb _ _); [discriminate|]. destruct (rev (pr_prev r1)) as [|v older]; [discriminate|]. cbv zeta.
  destruct (move_last _ _) as [r2|] eqn:M; [|discriminate]. cbn [option_map]. intros H. injection H as _ <-. apply (move_spec n) in M; auto. destruct M as (T & ->).
  apply (grad_poses_evolves eigs) in G. destruct (evolves_cost eigs _ _ (proj1 G) W). unfold lined. cbn [with_prev with_traj with_planes pr_planes pr_nposes pr_traj]. rewrite path_length. repeat split; auto. apply path_line; auto.
Qed.
Lemma lined_optimizer eigs inv m mx n r r' : (0 < n)%nat -> lined n r -> run_optimizer eigs inv m mx r = Some r' -> lined n r'.
Proof.
  intros N HL. unfold run_optimizer. destruct (opt_solve _ _ _ _ _ _) as [[o kk]|] eqn:E; [|discriminate]. cbn [option_map]. intros H. injection H as <-.
  destruct (plane_lawful eigs n N) as [A B C D F]. apply (oi_solve (plane_problem eigs) inv (lined n)) in E; auto.
  - intros x x' e HI HE. apply (A _ _ _ HI HE).
  - intros x x' q HI HE. apply (B _ _ _ HI HE).
  - intros dx x x' HI HE. apply (C _ _ _ HI HE).
  - intros x HI. apply (D _ HI).
  - intros x HI. apply (F _ HI).
Qed.
Definition along (m : solve_mode) : Prop := m <> INITIALIZE /\ m <> GRADIENT_ALL_POSES.
Lemma lined_solve eigs inv jacobi m s n r c r' : (0 < n)%nat -> along m -> lined n r -> preg_solve eigs inv jacobi m s r = Some (c, r') -> lined n r'.
Proof.
  intros N [AI AG] HL. unfold preg_solve. destruct (get_current_error eigs r) as [[e r0]|] eqn:E; [|discriminate]. cbv zeta. apply (lined_error _ n) in E; auto. assert (E1 : lined n (with_initial r0 e)) by exact E.
  destruct m; try congruence; intros H.
  - cbn [option_map] in H; injection H as _ <-. exact E1.
  - destruct (descend _ _ _ _ _ _) as [r2|] eqn:E2; [|discriminate]. cbn [option_map] in H; injection H as _ <-. refine (descend_inv (lined n) _ _ _ _ _ _ _ _ _ E1 E2).
    + intros x e0 x' HI HE. eapply lined_nag; eauto.
    + intros x k HI. exact HI.
  - destruct (run_optimizer _ _ _ _ _) as [r2|] eqn:E2; [|discriminate]. cbn [option_map] in H; injection H as _ <-. eapply lined_optimizer; eauto.
  - cbn [option_map] in H; injection H as _ <-. exact E1.
  - destruct (run_optimizer _ _ _ _ _) as [r2|] eqn:E2; [|discriminate]. cbn [option_map] in H; injection H as _ <-. eapply lined_optimizer; eauto.
  - destruct (run_optimizer _ _ _ _ _) as [r2|] eqn:E2; [|discriminate]. cbn [option_map] in H; injection H as _ <-. eapply lined_optimizer; eauto.
Qed.
Lemma interpolated_id n t : interpolated n (se3_ln_vee m4id) t = m4id.
Proof. unfold interpolated. rewrite se3_ln_vee_id. replace (v6scal _ v6zero) with v6zero by (unfold v6zero; lin). apply se3_of_zero. Qed.
Lemma nth_repeat_id n t : (t < n)%nat -> nth_error (repeat m4id n) t = Some m4id.
Proof. intros H. rewrite (nth_error_nth' _ m4id) by (rewrite repeat_length; auto). rewrite nth_repeat. reflexivity. Qed.
Lemma line_ids n : (0 < n)%nat -> on_line n (repeat m4id n).
Proof.
  intros N. exists m4id. split; [apply nth_repeat_id; lia|]. apply nth_error_ext. intros t. destruct (Nat.lt_ge_cases t n) as [H | H].
  - rewrite path_nth by (rewrite ?repeat_length; auto). rewrite !nth_repeat_id by auto. rewrite interpolated_id. destruct (_ =? _)%nat; auto. destruct (_ =? _)%nat; auto.
  - transitivity (@None M4); [|symmetry]; apply nth_error_None; rewrite ?path_length, repeat_length; lia.
Qed.
Lemma interpolated_last n xi : (2 <= n)%nat -> interpolated n xi (n - 1) = se3_of_vec xi.
Proof.
  intros N. unfold interpolated. replace (1 / INR (n - 1) * INR (n - 1)) with 1 by (field; apply not_0_INR; lia). f_equal. destruct xi. lin.
Qed.
(** set_last_pose puts the last pose to exp(ln T) and the others on the path to T *)
Lemma set_last_nth n T r r' t : pr_nposes r = n -> length (pr_traj r) = n -> (2 <= n)%nat -> set_last_pose T r = Some r' -> (t < n)%nat ->
  nth_error (pr_traj r') t = if Nat.eqb t 0 then nth_error (pr_traj r) 0 else Some (interpolated n (se3_ln_vee T) t).
Proof.
  intros NP L N H Ht. unfold set_last_pose in H. rewrite NP, L in H. replace (n <=? 1)%nat with false in H by (symmetry; apply Nat.leb_gt; lia). rewrite Nat.leb_refl in H. injection H as <-. cbn [with_traj pr_traj].
  destruct (Nat.eqb_spec t 0) as [-> | N0]; [apply interpolate_out; lia|].
  destruct (nth_error (pr_traj r) t) as [T0|] eqn:E; [|apply nth_error_None in E; lia]. rewrite (interpolate_nth _ _ _ _ _ _ _ E).
  replace (1 <=? t)%nat with true by (symmetry; apply Nat.leb_le; lia). replace (t <? n)%nat with true by (symmetry; apply Nat.ltb_lt; lia). reflexivity.
Qed.
Lemma line_last n T r r' : pr_nposes r = n -> length (pr_traj r) = n -> (2 <= n)%nat -> se3_ln_vee (se3_of_vec (se3_ln_vee T)) = se3_ln_vee T ->
  set_last_pose T r = Some r' -> length (pr_traj r') = n -> on_line n (pr_traj r').
Proof.
  intros NP L N LN H L'. exists (se3_of_vec (se3_ln_vee T)). split.
  - rewrite (set_last_nth n T r r' (n - 1)) by (auto; lia). destruct (Nat.eqb_spec (n - 1) 0); [lia|]. rewrite interpolated_last; auto.
  - apply nth_error_ext. intros t. destruct (Nat.lt_ge_cases t n) as [Ht | Ht].
    + rewrite path_nth, !(set_last_nth n T r r') by (auto; lia). rewrite LN. destruct (Nat.eqb_spec t (n - 1)) as [-> | N1]; [destruct (Nat.eqb_spec (n - 1) 0); [lia|]; rewrite interpolated_last; auto|].
      destruct (Nat.eqb_spec t 0); auto.
    + transitivity (@None M4); [|symmetry]; apply nth_error_None; rewrite ?path_length; lia.
Qed.
Lemma line_run k ops r : Forall reg_ok ops -> Forall on_path ops -> reg_run k ops preg_new = Some r -> (0 < poses_of ops)%nat -> on_line (poses_of ops) (pr_traj r).
Proof.
  revert r. induction ops as [|o ops IH] using rev_ind; intros r F FP E N; [cbn in N; lia|].
  pose proof (after_run k _ r F E) as AR. apply reg_run_snoc in E. destruct E as (q & E1 & E2). apply Forall_app in F. destruct F as [F FO]. apply Forall_app in FP. destruct FP as [FP FPO]. apply Forall_inv in FPO.
  pose proof (after_run k ops q F E1) as AQ. specialize (IH q F FP E1). unfold poses_of in *. rewrite history_snoc in *.
  destruct o as [a b|i|i n pops|i t x| | | | T|m s]; cbn [reg_step] in E2; cbn [note] in *; cbn [fst] in *.
  - injection E2 as <-. apply line_ids. auto.
  - injection E2 as <-. exact (IH N).
  - destruct (plane_run (k_eigs k) pops (plane_new n)) as [p|] eqn:EP; [|discriminate]. injection E2 as <-. exact (IH N).
  - unfold plane_push_back_point in E2. destruct (push_in i t x (pr_planes q)) as [l|] eqn:EP; [|discriminate]. injection E2 as <-. exact (IH N).
  - destruct (get_current_error (k_eigs k) q) as [[e r1]|] eqn:EP; [|discriminate]. injection E2 as <-. cbn. pose proof (kept_error _ _ _ _ EP) as (_ & -> & _). exact (IH N).
  - injection E2 as <-. exact (IH N).
  - assert (ER : r = reset_solution q) by congruence. subst r. unfold reset_solution. cbn [with_prev with_traj pr_traj]. destruct (after_length _ _ _ AQ N) as [-> _]. apply line_ids. auto.
  - destruct (after_length _ _ _ AQ N) as [NP L]. destruct (after_length _ _ _ AR N) as [_ L']. destruct (Nat.lt_ge_cases (fst (history ops)) 2) as [G | G].
    + unfold set_last_pose in E2. rewrite NP in E2. replace (fst (history ops) <=? 1)%nat with true in E2 by (symmetry; apply Nat.leb_le; lia). injection E2 as <-. exact (IH N).
    + cbn in FPO. exact (line_last _ T q r NP L G FPO E2 L').
  - destruct (preg_solve _ _ _ _ _ _) as [[c r1]|] eqn:EP; [|discriminate]. injection E2 as <-. cbn [snd].
    apply (lined_solve _ _ _ _ _ (fst (history ops))) in EP; auto; [apply EP | split; intros ->; exact FPO |]. apply lined_after with (k := k) ; auto.
Qed.
Lemma line_velocity n tr : (0 < n)%nat -> length tr = n -> on_line n tr <-> constant_velocity n tr.
Proof.
  intros N L. split.
  - intros (T & ET & EP). exists T. split; auto. intros t H0 H1. rewrite EP, path_nth by lia. destruct (Nat.eqb_spec t (n - 1)); [lia|]. destruct (Nat.eqb_spec t 0); [lia|]. unfold interpolated. do 3 f_equal. field. apply not_0_INR. lia.
  - intros (T & ET & EP). exists T. split; auto. apply nth_error_ext. intros t. destruct (Nat.lt_ge_cases t n) as [Ht | Ht].
    + rewrite path_nth by auto. destruct (Nat.eqb_spec t (n - 1)) as [-> | N1]; auto. destruct (Nat.eqb_spec t 0) as [-> | N0]; auto. rewrite EP by lia. unfold interpolated. do 3 f_equal. field. apply not_0_INR. lia.
    + transitivity (@None M4); [|symmetry]; apply nth_error_None; rewrite ?path_length; lia.
Qed.
