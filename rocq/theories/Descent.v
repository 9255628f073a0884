(** The gradient modes of the plane registration. *)
Require Import Reals List Arith Lia Lra Psatz Bool.
From Verif Require Import Lin LinFacts SO3 SE3 SpecGeom SO3Exp SO3Ln SE3Ops SE3Alg SE3Exp SE3Ln Sums Nodes Robust Graph Solve Session Factors SpecFactors FactorsDer Factors3D Factors3DLn FactorsSession DenseProofs SE3Tangent.
From Verif Require Import Registration SpecRegistration ArunProofs RegistrationMore Optimizer OptimizerProofs Planes SpecPlanes PlanesProofs PlanesEigen PlanesMore PlanesHess SpecPlaneReg PlaneRegProofs PlaneRegMore PlaneRegSolve PlaneRegInit PlaneRegGrad Evaluate SpecDescent.
Import ListNotations.
Local Open Scope R_scope.

(** ** Moving every pose *)
Lemma moved_nth d s tr t : nth_error (moved d s tr) t = option_map (fun T => se3_update_lhs T (v6scal s (d t))) (nth_error tr t).
Proof. unfold moved. rewrite nth_error_map, combine_seq_nth. destruct (nth_error tr t); reflexivity. Qed.
Lemma moved_length d s tr : length (moved d s tr) = length tr.
Proof. unfold moved. rewrite map_length, combine_length, seq_length. apply Nat.min_id. Qed.
Lemma moved_hom d s tr : Forall hom4 tr -> Forall hom4 (moved d s tr).
Proof.
  intros F. apply Forall_forall. intros T I. unfold moved in I. apply in_map_iff in I. destruct I as ([t T0] & <- & I). apply in_combine_r in I. apply update_hom. rewrite Forall_forall in F. auto.
Qed.
Lemma moved_0 d tr : Forall hom4 tr -> moved d 0 tr = tr.
Proof.
  intros F. apply nth_error_ext. intros t. rewrite moved_nth. destruct (nth_error tr t) as [T|] eqn:E; auto. cbn. rewrite scal_zero, update_zero; auto.
  rewrite Forall_forall in F. apply F. eapply nth_error_In; eauto.
Qed.
Definition moved_curves (d : nat -> V6) (tr : list M4) : list (R -> M4) :=
  map (fun q s => se3_update_lhs (snd q) (v6scal s (d (fst q)))) (combine (seq 0 (length tr)) tr).
Definition moved_dots (d : nat -> V6) (tr : list M4) : list M4 :=
  map (fun q => m4mul (twist (d (fst q))) (snd q)) (combine (seq 0 (length tr)) tr).
Lemma moved_at d tr s : at_s (moved_curves d tr) s = moved d s tr.
Proof. unfold at_s, moved_curves, moved. rewrite map_map. reflexivity. Qed.
Lemma moved_der d tr : Forall hom4 tr -> Forall2 (fun c D => m4_derivative c 0 D) (moved_curves d tr) (moved_dots d tr).
Proof.
  intros F. unfold moved_curves, moved_dots. assert (G : Forall (fun q : nat * M4 => hom4 (snd q)) (combine (seq 0 (length tr)) tr)).
  { apply Forall_forall. intros [t T] I. apply in_combine_r in I. rewrite Forall_forall in F. cbn. auto. }
  induction G as [|[t T] l HT G IH]; constructor; auto. cbn [fst snd] in *. apply (update_tangent T (d t)). exact HT.
Qed.
Lemma quad_dot_moved (l : list (nat * M4)) (d : nat -> V6) Ss v : Forall (fun St => m4tr St = St) Ss ->
  quad4 (dot_sum (map snd l) (map (fun q => m4mul (twist (d (fst q))) (snd q)) l) Ss) v =
  lsum (combine l Ss) (fun q => v6dot (gradient_of (conj4 (snd (fst q)) (snd q)) v) (d (fst (fst q)))).
Proof.
  intros F. revert l. induction F as [|St Ss H F IH]; intros [|[t T] l]; cbn [map combine dot_sum]; try (rewrite lsum_nil; unfold quad4; destruct v as [[? ? ?] ?]; lin; fail).
  rewrite lsum_cons, quad4_add, IH, conj_dot_twist by auto. reflexivity.
Qed.
(** ** What the passes compute *)
Definition slope_at (eigs : M4 -> eigen4) (tr : list M4) (t : nat) (q : nat * plane) : V6 :=
  gradient_of (nth t (Q_of tr (S_used (snd q))) m4zero) (e4_vec (eigs (acc_of tr (snd q)))).
Definition slope (eigs : M4 -> eigen4) (tr : list M4) (l : list (nat * plane)) (t : nat) : V6 :=
  fold_right (fun q a => v6add (slope_at eigs tr t q) a) v6zero l.
Lemma slope_dot eigs tr l t xi : v6dot (slope eigs tr l t) xi = lsum l (fun q => v6dot (slope_at eigs tr t q) xi).
Proof.
  induction l as [|q l IH]; cbn [slope fold_right]; [rewrite lsum_nil; destruct xi as [[? ? ?] [? ? ?]]; lin|].
  rewrite lsum_cons, <- IH. fold (slope eigs tr l t). generalize (slope_at eigs tr t q), (slope eigs tr l t). clear. intros; lin.
Qed.
Lemma grad_planes_looked eigs tr t l l1 g n l2 : Forall2 (looked eigs tr) l l1 -> grad_planes t l1 = Some (g, n, l2) ->
  Forall2 (looked eigs tr) l l2 /\ Forall (fun q => (t < length (Q_of tr (S_used (snd q))))%nat) l /\ g = slope eigs tr l t /\
  map (fun q => pl_points (snd q)) l2 = map (fun q => pl_points (snd q)) l1 /\ all_some (map (fun q => get_number_points t (snd q)) l1) <> None /\
  forall ns, all_some (map (fun q => get_number_points t (snd q)) l1) = Some ns -> n = list_sum ns.
Proof.
  intros F. revert g n l2. induction F as [|[i p] [j p1] l l1 (A & B) F IH]; intros g n l2 E; cbn [grad_planes] in E.
  - injection E as <- <- <-. repeat split; try constructor; [discriminate|]. intros ns H. injection H as <-. reflexivity.
  - cbn [snd] in A, B. unfold calculate_gradient in E. rewrite A, B in E. destruct (nth_error (Q_of tr (S_used p)) t) as [Q|] eqn:EQ; [|discriminate E].
    fold (gradient_of Q (e4_vec (eigs (acc_of tr p)))) in E. match type of E with context [get_number_points t ?x] => set (p2 := x) in * end.
    destruct (get_number_points t p2) as [n1|] eqn:EN; [|discriminate E]. destruct (grad_planes t l1) as [[[g1 m1] l3]|] eqn:EG; [|discriminate E]. injection E as <- <- <-.
    destruct (IH _ _ _ eq_refl) as (C & D & G & H & K & N). split; [constructor; auto; split; auto|]. split; [constructor; auto; cbn [snd]; apply nth_error_Some; congruence|].
    split; [cbn [slope fold_right]; rewrite G; unfold slope_at; cbn [snd]; rewrite (nth_error_nth _ _ m4zero EQ); reflexivity|].
    split; [cbn [map snd]; rewrite H; reflexivity|]. change (get_number_points t p2) with (get_number_points t p1) in EN. cbn [map all_some snd]. rewrite EN.
    destruct (all_some (map _ l1)) as [ns|]; [|congruence]. split; [discriminate|]. intros ms M. injection M as <-. cbn [list_sum fold_right]. rewrite (N ns eq_refl). reflexivity.
Qed.
Lemma map_number t (l l' : list (nat * plane)) : map (fun q => pl_points (snd q)) l' = map (fun q => pl_points (snd q)) l ->
  map (fun q => get_number_points t (snd q)) l' = map (fun q => get_number_points t (snd q)) l.
Proof.
  intros H. unfold get_number_points. rewrite <- (map_map (fun q : nat * plane => pl_points (snd q)) (fun x => option_map (@length V3) (nth_error x t)) l').
  rewrite H, map_map. reflexivity.
Qed.
Lemma grad_poses_looked eigs tr ts l : forall l1 gs l2, Forall2 (looked eigs tr) l l1 -> grad_poses ts l1 = Some (gs, l2) ->
  Forall2 (looked eigs tr) l l2 /\ (forall t, In t ts -> Forall (fun q => (t < length (Q_of tr (S_used (snd q))))%nat) l) /\
  map fst gs = map (fun t => (t, slope eigs tr l t)) ts /\ map (fun q => pl_points (snd q)) l2 = map (fun q => pl_points (snd q)) l1 /\
  forall c, (forall t, In t ts -> exists ns, all_some (map (fun q => get_number_points t (snd q)) l1) = Some ns /\ list_sum ns = c t) -> map snd gs = map c ts.
Proof.
  induction ts as [|t ts IH]; intros l1 gs l2 F E; cbn [grad_poses] in E.
  - injection E as <- <-. split; auto. split; [intros t []|]. auto.
  - destruct (grad_planes t l1) as [[[g1 n1] l3]|] eqn:EG; [|discriminate E]. destruct (grad_poses ts l3) as [[g2 l4]|] eqn:EP; [|discriminate E]. cbn [option_map fst snd] in E. injection E as <- <-.
    destruct (grad_planes_looked eigs tr t l l1 g1 n1 l3 F EG) as (A & B & C & D & _ & N). destruct (IH _ _ _ A EP) as (A2 & B2 & C2 & D2 & N2).
    split; auto. split; [intros u [<- | U]; auto|]. split; [cbn [map fst]; rewrite C, C2; reflexivity|]. split; [congruence|].
    intros c HC. cbn [map snd]. f_equal; [destruct (HC t (or_introl eq_refl)) as (ns & X & Y); rewrite (N ns X); exact Y|]. apply N2. intros u U. rewrite (map_number u _ _ D). apply HC. right. exact U.
Qed.
Lemma number_at eigs t h l : Forall2 (same_plane eigs) h l -> Forall (fun q : entry => (t < fst (snd q))%nat) h ->
  exists ns, all_some (map (fun q => get_number_points t (snd q)) l) = Some ns /\ list_sum ns = points_at t h.
Proof.
  induction 1 as [|[i [n ops]] [j p] h l (E & L) F IH]; intros HT; [exists []; split; reflexivity|]. inversion HT as [|? ? Ht HT1]; subst. cbn [fst snd] in *. destruct (IH HT1) as (ns & A & B).
  destruct (like_shape _ _ _ _ L) as [SH _]. cbn [map all_some snd]. unfold get_number_points at 1. rewrite (sh_pts _ _ _ SH), all_pushed_nth by auto. cbn [option_map]. rewrite A. eexists. split; [reflexivity|].
  unfold points_at. cbn [map list_sum fold_right snd]. unfold points_at in B. unfold list_sum in *. rewrite B. reflexivity.
Qed.
(** ** The gradient *)
Lemma total_ecost eigs tr h l : (forall Q, m4tr Q = Q -> exact4 eigs Q) -> Forall hom4 tr -> Forall2 (same_plane eigs) h l -> fits (length tr) h -> total_error tr h (ecost eigs tr l).
Proof.
  intros X HM TK FT. destruct (estimated_all eigs tr h l TK FT) as (e & l' & E). rewrite <- (estimate_cost eigs tr l e l' (like_well _ _ _ TK) E). eapply estimated_error; eauto.
Qed.
Lemma like_S eigs h l n : Forall2 (same_plane eigs) h l -> sizes n h -> Forall (fun q : nat * plane => length (S_used (snd q)) = n) l.
Proof.
  induction 1 as [|[i [m ops]] [j p] h l (E & L) F IH]; intros SZ; constructor; inversion SZ as [|? ? S1 S2]; subst; auto. cbn [fst snd] in *. rewrite (like_used _ _ _ _ L), map_length, used_length. reflexivity.
Qed.
Lemma slope_gradient eigs h l tr : (forall Q, m4tr Q = Q -> exact4 eigs Q) -> Forall2 (same_plane eigs) h l -> Forall hom4 tr -> sizes (length tr) h -> distinct h tr ->
  gradient_at h tr (slope eigs tr l).
Proof.
  intros X TK HM SZ SL d E HE.
  assert (FT : forall s, fits (length (moved d s tr)) h). { intros s. rewrite moved_length. eapply Forall_impl; [|exact SZ]. intros q Hq. cbn in Hq. lia. }
  eapply dl_ext; [intros s; exact (total_unique _ _ _ _ (HE s) (total_ecost eigs _ h l X (moved_hom d s tr HM) TK (FT s)))|].
  eapply dl_ext; [intros s; rewrite <- moved_at; reflexivity|].
  pose proof (ecost_der eigs h l (moved_curves d tr) (moved_dots d tr) X TK) as D. rewrite moved_at, (moved_0 d tr HM) in D.
  eapply dl_eq; [apply D|].
  - intros s. rewrite moved_at. apply moved_hom. auto.
  - apply moved_der. auto.
  - exact SL.
  - pose proof (like_sym _ _ _ TK) as SY. pose proof (like_S _ _ _ _ TK SZ) as LS.
    rewrite (lsum_ext (seq 0 (length tr)) _ (fun t => lsum l (fun q => v6dot (slope_at eigs tr t q) (d t)))) by (intros t _; apply slope_dot).
    rewrite lsum_exchange. apply lsum_ext. intros q I. rewrite Forall_forall in SY, LS. specialize (SY q I). specialize (LS q I). unfold moved_dots.
    rewrite <- (combine_snd_seq tr 0) at 1. rewrite (quad_dot_moved (combine (seq 0 (length tr)) tr) d _ _ SY).
    rewrite (lsum_combine_index tr (S_used (snd q)) (fun t T St => v6dot (gradient_of (conj4 T St) (e4_vec (eigs (acc_of tr (snd q))))) (d t)) (length tr) m4zero eq_refl LS).
    apply lsum_ext. intros t It. apply in_seq in It. unfold slope_at, Q_of.
    assert (EN : nth t (map (fun q0 : M4 * M4 => conj4 (fst q0) (snd q0)) (combine tr (S_used (snd q)))) m4zero = conj4 (nth t tr m4zero) (nth t (S_used (snd q)) m4zero)).
    { apply nth_error_nth. rewrite nth_error_map, nth_error_combine. rewrite (nth_error_nth' tr m4zero) by lia. rewrite (nth_error_nth' (S_used (snd q)) m4zero) by lia. reflexivity. }
    rewrite EN. reflexivity.
Qed.
(** ** Passes *)
Definition evaluated_all (h : list entry) : list entry := extend (fun _ => true) (Estimate []) h.
Definition inside (eigs : M4 -> eigen4) (h : list entry) (n : nat) (r : preg) : Prop :=
  Forall2 (same_plane eigs) (evaluated_all h) (pr_planes r) /\ pr_nposes r = n /\ length (pr_traj r) = n /\ Forall hom4 (pr_book r :: pr_traj r).
Lemma inside_kept eigs h n r r' : inside eigs h n r -> kept eigs r r' -> inside eigs h n r'.
Proof. intros (A & B & C & D) [K1 K2 K3 _ K5]. split; [eapply tracked_quiet; eauto|]. split; [congruence|]. split; [congruence | auto]. Qed.
Lemma inside_planes eigs h n r l : inside eigs h n r -> Forall2 (same_plane eigs) (evaluated_all h) l -> inside eigs h n (with_planes r l).
Proof. intros (A & B & C & D) F. split; auto. Qed.
Lemma move_poses_nth k : forall gs tr tr', NoDup (map (fun q : nat * V6 * nat => fst (fst q)) gs) -> move_poses k gs tr = Some tr' ->
  (forall t g m, In (t, g, m) gs -> nth_error tr' t = option_map (fun T => se3_update_lhs T (v6scal (- k) g)) (nth_error tr t)) /\
  (forall t, ~ In t (map (fun q : nat * V6 * nat => fst (fst q)) gs) -> nth_error tr' t = nth_error tr t).
Proof.
  induction gs as [|[[t g] m] gs IH]; intros tr tr' ND H; cbn [move_poses] in H; [injection H as <-; split; [intros ? ? ? []|auto]|].
  destruct (nth_error tr t) as [T|] eqn:E; [|discriminate H]. cbn [map fst] in ND. apply NoDup_cons_iff in ND. destruct ND as [NI ND]. destruct (IH _ _ ND H) as (A & B). split.
  - intros u g' m' [I | I].
    + injection I as <- <- <-. rewrite (B t NI), E. cbn [option_map]. apply set_at_same. apply nth_error_Some. congruence.
    + rewrite (A u g' m' I), set_at_other; auto. intros <-. apply NI. apply in_map_iff. exists (t, g', m'). auto.
  - intros u NU. cbn [map fst] in NU. rewrite B by (intros I; apply NU; right; exact I). apply set_at_other. intros <-. apply NU. left. reflexivity.
Qed.
Lemma move_poses_defined k : forall gs tr, Forall (fun q : nat * V6 * nat => (fst (fst q) < length tr)%nat) gs -> exists tr', move_poses k gs tr = Some tr'.
Proof.
  induction gs as [|[[t g] m] gs IH]; intros tr F; cbn [move_poses]; [eauto|]. inversion F as [|? ? F1 F2]; subst. cbn [fst] in F1.
  destruct (nth_error tr t) as [T|] eqn:E; [|apply nth_error_None in E; lia]. apply IH. rewrite set_at_length. exact F2.
Qed.
Lemma number_size t h l eigs n : Forall2 (same_plane eigs) h l -> sizes n h -> (t < n)%nat -> Forall (fun q : entry => (t < fst (snd q))%nat) h.
Proof. intros _ SZ H. eapply Forall_impl; [|exact SZ]. intros q Hq. cbn in Hq. lia. Qed.
Lemma seq_last n : (2 <= n)%nat -> seq 1 (n - 1) = seq 1 (n - 2) ++ [(n - 1)%nat].
Proof. intros H. replace (n - 1)%nat with (S (n - 2)) at 1 by lia. rewrite seq_S. do 2 f_equal. lia. Qed.
(** what both passes do first *)
Lemma pass_start eigs h n r e r1 gs l : inside eigs h n r -> (2 <= n)%nat -> get_current_error eigs r = Some (e, r1) -> grad_poses (seq 1 (pr_nposes r - 1)) (pr_planes r1) = Some (gs, l) ->
  inside eigs h n r1 /\ inside eigs h n (with_planes r1 l) /\ pr_traj r1 = pr_traj r /\ pr_prev r1 = pr_prev r /\ pr_alpha r1 = pr_alpha r /\ pr_beta r1 = pr_beta r /\ sizes n (evaluated_all h) /\
  e = ecost eigs (pr_traj r) (pr_planes r) /\
  map fst gs = map (fun t => (t, slope eigs (pr_traj r) (pr_planes r) t)) (seq 1 (n - 1)) /\ map snd gs = map (fun t => points_at t (evaluated_all h)) (seq 1 (n - 1)).
Proof.
  intros IN N E EG. pose proof IN as (TK & NP & LT & HM). pose proof (kept_error _ _ _ _ E) as (KE & ET & EB). pose proof (inside_kept _ _ _ _ _ IN KE) as IN1.
  unfold get_current_error in E. destruct (estimate_all eigs (pr_traj r) (pr_planes r)) as [[e1 l1]|] eqn:EA; [|discriminate E]. cbn [option_map fst snd] in E. injection E as <- <-. cbn [with_planes pr_planes] in EG.
  rewrite NP in EG. pose proof (looked_all _ _ _ _ _ (like_well _ _ _ TK) EA) as LK. destruct (grad_poses_looked _ _ _ _ _ _ _ LK EG) as (_ & LEN & GS & PT & CN).
  assert (SZ : sizes n (evaluated_all h)).
  { specialize (LEN (n - 1)%nat ltac:(apply in_seq; lia)). pose proof (estimated_fits _ _ _ _ _ _ TK EA) as FT. clear - TK FT LT LEN N. revert FT LEN.
    induction TK as [|[i [m ops]] [j p] h' l (E & L) F IH]; intros FT LEN; constructor; inversion FT as [|? ? F1 F2]; inversion LEN as [|? ? L1 L2]; subst; [|apply IH; auto].
    cbn [fst snd] in *. unfold Q_of in L1. rewrite map_length, combine_length, (like_used _ _ _ _ L), map_length, used_length in L1. lia. }
  split; [exact IN1|]. split.
  { apply (inside_kept _ _ _ _ _ IN1). apply kept_planes. cbn [with_planes pr_planes]. apply (grad_poses_evolves eigs) in EG. exact (proj1 EG). }
  split; [reflexivity|]. split; [reflexivity|]. split; [reflexivity|]. split; [reflexivity|]. split; [exact SZ|]. split; [eapply estimate_cost; eauto; eapply like_well; eauto|]. split; [exact GS|].
  apply CN. intros t It. apply in_seq in It. destruct IN1 as (TK1 & _). cbn [with_planes pr_planes] in TK1. apply (number_at eigs t (evaluated_all h) l1 TK1). eapply number_size; eauto. lia.
Qed.
Lemma last_count gs n (c : nat -> nat) : (2 <= n)%nat -> map (@snd (nat * V6) nat) gs = map c (seq 1 (n - 1)) -> match rev gs with [] => 1%nat | (_, _, m) :: _ => m end = c (n - 1)%nat.
Proof.
  intros N H. rewrite seq_last in H by auto. rewrite map_app in H. cbn [map] in H. destruct (rev gs) as [|[[t g] m] gs'] eqn:E.
  - assert (gs = []) by (rewrite <- (rev_involutive gs), E; reflexivity). subst gs. cbn [map] in H. symmetry in H. apply app_eq_nil in H. destruct H as [_ H]. discriminate H.
  - assert (G : gs = rev gs' ++ [(t, g, m)]) by (rewrite <- (rev_involutive gs), E; reflexivity). rewrite G, map_app in H. cbn [map snd] in H. apply app_inj_tail in H. exact (proj2 H).
Qed.
Lemma map_fst_dup gs n (f : nat -> V6) : map fst gs = map (fun t => (t, f t)) (seq 1 (n - 1)) -> map (fun q : nat * V6 * nat => fst (fst q)) gs = seq 1 (n - 1).
Proof. intros H. rewrite <- (map_map (@fst (nat * V6) nat) fst), H, map_map. cbn [fst]. apply map_id. Qed.
Lemma all_poses_inv eigs h n r e r' : inside eigs h n r -> (2 <= n)%nat -> all_poses_pass eigs r = Some (e, r') ->
  inside eigs h n r' /\ sizes n (evaluated_all h) /\ (0 < points_at (n - 1) (evaluated_all h))%nat /\ pr_alpha r' = pr_alpha r /\ e = ecost eigs (pr_traj r) (pr_planes r) /\
  pr_traj r' = moved (fun t => if Nat.eqb t 0 then v6zero else slope eigs (pr_traj r) (pr_planes r) t) (- (pr_alpha r / INR (points_at (n - 1) (evaluated_all h)) / INR n)) (pr_traj r).
Proof.
  intros IN N E. pose proof (kept_all_poses _ _ _ _ E) as KP. split; [eapply inside_kept; eauto|]. unfold all_poses_pass in E.
  destruct (get_current_error eigs r) as [[e1 r1]|] eqn:E1; [|discriminate E]. destruct (grad_poses _ _) as [[gs l]|] eqn:EG; [|discriminate E].
  destruct (pass_start eigs h n r e1 r1 gs l IN N E1 EG) as (_ & _ & ET & _ & EA & _ & SZ & EC & GS & CN). cbv zeta in E. rewrite (last_count gs n _ N CN), ET in E.
  destruct (Nat.eqb_spec (points_at (n - 1) (evaluated_all h)) 0) as [Z|Z]; [discriminate E|]. destruct (move_poses _ _ _) as [tr|] eqn:EM; [|discriminate E]. injection E as <- <-.
  split; [exact SZ|]. split; [lia|]. split; [exact EA|]. split; [exact EC|]. cbn [with_traj with_planes pr_traj].
  pose proof (map_fst_dup gs n _ GS) as MF. destruct IN as (_ & NP & LT & HM). rewrite NP in EM.
  destruct (move_poses_nth _ _ _ _ ltac:(rewrite MF; apply seq_NoDup) EM) as (A & B). apply nth_error_ext. intros t. rewrite moved_nth.
  destruct (in_dec Nat.eq_dec t (seq 1 (n - 1))) as [I|I].
  - pose proof I as I2. apply in_seq in I2. destruct (Nat.eqb_spec t 0) as [->|_]; [lia|].
    assert (G : In (t, slope eigs (pr_traj r) (pr_planes r) t) (map fst gs)) by (rewrite GS; apply in_map_iff; exists t; auto). apply in_map_iff in G. destruct G as ([q m] & Q & G). cbn [fst] in Q. subst q. exact (A _ _ _ G).
  - rewrite B by (rewrite MF; exact I). destruct (nth_error (pr_traj r) t) as [T|] eqn:Y; cbn [option_map]; auto.
    assert (t < n)%nat by (rewrite <- LT; apply nth_error_Some; congruence). destruct (Nat.eqb_spec t 0) as [->|NZ]; [|exfalso; apply I; apply in_seq; lia].
    f_equal. symmetry. assert (Z0 : forall s, v6scal s v6zero = v6zero) by (clear; intros; lin). rewrite Z0. apply update_zero. rewrite Forall_forall in HM. apply HM. right. eapply nth_error_In; eauto.
Qed.
Lemma grad_planes_defined n t l : (t < n)%nat -> Forall (fun q => measured n (snd q) /\ length (pl_points (snd q)) = n) l ->
  exists g m l', grad_planes t l = Some (g, m, l') /\ Forall (fun q => measured n (snd q) /\ length (pl_points (snd q)) = n) l'.
Proof.
  intros Ht M. induction M as [|[i p] l ((EV & LQ) & LP) M (g & m & l' & E & M')]; cbn [grad_planes]; [do 3 eexists; split; [reflexivity | constructor]|]. cbn [snd] in *.
  unfold calculate_gradient. destruct (nth_error (pl_Q p) t) as [Q|] eqn:EQ; [|apply nth_error_None in EQ; lia]. destruct (pl_est p) as [v|] eqn:EE; [|congruence]. cbv zeta.
  unfold get_number_points at 1. cbn [pl_points]. destruct (nth_error (pl_points p) t) as [x|] eqn:EX; [|apply nth_error_None in EX; lia]. cbn [option_map]. rewrite E.
  do 3 eexists. split; [reflexivity|]. constructor; auto. split; [split; cbn; [congruence | auto] | exact LP].
Qed.
Lemma grad_poses_defined n ts : forall l, (forall t, In t ts -> (t < n)%nat) -> Forall (fun q => measured n (snd q) /\ length (pl_points (snd q)) = n) l ->
  exists gs l', grad_poses ts l = Some (gs, l').
Proof.
  induction ts as [|t ts IH]; intros l HT M; cbn [grad_poses]; [eauto|].
  destruct (grad_planes_defined n t l (HT t (or_introl eq_refl)) M) as (g & m & l1 & E & M1). rewrite E.
  destruct (IH l1 (fun u H => HT u (or_intror H)) M1) as (gs & l2 & E2). rewrite E2. cbn [option_map]. eauto.
Qed.
Lemma inside_ready eigs h n r : inside eigs h n r -> sizes n (evaluated_all h) -> ready n r.
Proof.
  intros (TK & NP & LT & _) SZ. split; [|auto]. clear NP LT. induction TK as [|a q hs l (E & L) F IH]; [constructor|]. inversion SZ as [|? ? S1 S2]; subst. constructor; [|apply IH; auto].
  destruct (like_shape _ _ _ _ L) as [SH _]. eauto.
Qed.
Lemma start_defined eigs h n r : inside eigs h n r -> sizes n (evaluated_all h) -> (0 < n)%nat ->
  exists e r1 gs l, get_current_error eigs r = Some (e, r1) /\ grad_poses (seq 1 (pr_nposes r - 1)) (pr_planes r1) = Some (gs, l).
Proof.
  intros IN SZ N. pose proof (inside_ready _ _ _ _ IN SZ) as RD. destruct (ready_error eigs n r RD) as (e & r1 & E & (RD1 & _) & M & _). destruct IN as (_ & NP & _). rewrite NP.
  destruct (grad_poses_defined n (seq 1 (n - 1)) (pr_planes r1)) as (gs & l & EG); [intros t I; apply in_seq in I; lia | | eauto 8].
  apply Forall_forall. intros q I. unfold sized in RD1. rewrite Forall_forall in M, RD1. split; [apply M; auto|]. destruct (RD1 q I) as (pts & [A B C D]). congruence.
Qed.
Lemma all_poses_defined eigs h n r : inside eigs h n r -> (2 <= n)%nat -> sizes n (evaluated_all h) -> (0 < points_at (n - 1) (evaluated_all h))%nat -> exists e r', all_poses_pass eigs r = Some (e, r').
Proof.
  intros IN N SZ P. destruct (start_defined eigs h n r IN SZ ltac:(lia)) as (e & r1 & gs & l & E & EG). unfold all_poses_pass. rewrite E, EG.
  destruct (pass_start eigs h n r e r1 gs l IN N E EG) as (_ & _ & ET & _ & _ & _ & _ & _ & GS & CN). cbv zeta. rewrite (last_count gs n _ N CN).
  destruct (Nat.eqb_spec (points_at (n - 1) (evaluated_all h)) 0) as [Z|Z]; [lia|]. pose proof (map_fst_dup gs n _ GS) as MF. destruct IN as (_ & NP & LT & _).
  match goal with |- context [move_poses ?k gs _] => destruct (move_poses_defined k gs (pr_traj r1)) as (tr & EM) end; [|rewrite EM; eauto].
  apply Forall_forall. intros q I. assert (J : In (fst (fst q)) (seq 1 (n - 1))) by (rewrite <- MF; apply in_map with (f := fun q : nat * V6 * nat => fst (fst q)); exact I). apply in_seq in J. rewrite ET, LT. lia.
Qed.
(** ** With momentum *)
Lemma nag_dot n gs xi : v6dot (nag_gradient n gs) xi = lsum gs (fun q => 1 / INR (n - 1) * INR (fst (fst q)) / INR (snd q) / INR n * v6dot (snd (fst q)) xi).
Proof.
  unfold nag_gradient. assert (G : forall a, v6dot (fold_left (fun a q => v6add a (v6scal (1 / INR (n - 1) * INR (fst (fst q)) / INR (snd q) / INR n) (snd (fst q)))) gs a) xi =
    v6dot a xi + lsum gs (fun q => 1 / INR (n - 1) * INR (fst (fst q)) / INR (snd q) / INR n * v6dot (snd (fst q)) xi)).
  { induction gs as [|[[t g] m] gs IH]; intros a; cbn [fold_left]; [rewrite lsum_nil; ring|]. rewrite IH, lsum_cons. cbn [fst snd]. generalize (1 / INR (n - 1) * INR t / INR m / INR n). clear. intros w.
    assert (X : v6dot (v6add a (v6scal w g)) xi = v6dot a xi + w * v6dot g xi) by lin. rewrite X. ring. }
  rewrite G. replace (v6dot v6zero xi) with 0 by (destruct xi as [[? ? ?] [? ? ?]]; lin). ring.
Qed.
Lemma gs_eq (gs : list (nat * V6 * nat)) (f : nat -> V6) (c : nat -> nat) ts : map fst gs = map (fun t => (t, f t)) ts -> map snd gs = map c ts -> gs = map (fun t => (t, f t, c t)) ts.
Proof.
  revert gs. induction ts as [|t ts IH]; intros [|[q m] gs] A B; cbn [map fst snd] in *; try discriminate A; auto. injection A as A1 A2. injection B as B1 B2. rewrite (IH gs A2 B2), A1, B1. reflexivity.
Qed.
Lemma existsb_count (f : nat -> V6) (c : nat -> nat) ts : existsb (fun q : nat * V6 * nat => (snd q =? 0)%nat) (map (fun t => (t, f t, c t)) ts) = false <-> forall t, In t ts -> (0 < c t)%nat.
Proof.
  induction ts as [|t ts IH]; cbn [map existsb snd]; [split; [intros _ t [] | reflexivity]|]. rewrite orb_false_iff, IH, Nat.eqb_neq. split.
  - intros [A B] u [<- | U]; [lia | auto].
  - intros A. split; [specialize (A t (or_introl eq_refl)); lia | intros u U; apply A; right; exact U].
Qed.
Lemma lsum_map {A B} (f : A -> B) (g : B -> R) l : lsum (map f l) g = lsum l (fun x => g (f x)).
Proof. induction l as [|x l IH]; cbn [map]; [reflexivity|]. rewrite !lsum_cons, IH. reflexivity. Qed.
Lemma move_last_spec n dx r r' : (2 <= n)%nat -> pr_nposes r = n -> length (pr_traj r) = n -> move_last dx r = Some r' ->
  exists T, nth_error (pr_traj r) (n - 1) = Some T /\ r' = with_traj r (path n (se3_update_lhs T dx) (pr_traj r)).
Proof.
  intros N NP LT. unfold move_last. rewrite (last_length n _ LT). destruct (nth_error (pr_traj r) (n - 1)) as [T|]; [|discriminate]. cbv zeta. rewrite NP, middle_path by (auto; lia).
  cbn [option_map]. intros H. injection H as <-. eauto.
Qed.
Lemma path_velocity n T tr : (2 <= n)%nat -> length tr = n -> constant_velocity n (path n T tr).
Proof.
  intros N L. exists T. split; [rewrite path_nth by lia; rewrite Nat.eqb_refl; reflexivity|]. intros t A B. rewrite path_nth by lia.
  destruct (Nat.eqb_spec t (n - 1)); [lia|]. destruct (Nat.eqb_spec t 0); [lia|]. unfold interpolated. do 3 f_equal. unfold Rdiv. ring.
Qed.
Definition momentum (r : preg) : V6 := match rev (pr_prev r) with [] => v6zero | v :: _ => v end.
Lemma nag_inv eigs h n r e r' : inside eigs h n r -> (2 <= n)%nat -> nag_pass eigs r = Some (e, r') ->
  inside eigs h n r' /\ sizes n (evaluated_all h) /\ (forall t, (1 <= t < n)%nat -> (0 < points_at t (evaluated_all h))%nat) /\ pr_alpha r' = pr_alpha r /\ pr_beta r' = pr_beta r /\
  length (pr_prev r') = length (pr_prev r) /\ e = ecost eigs (pr_traj r) (pr_planes r) /\
  exists J T, (forall d, v6dot J d = lsum (seq 1 (n - 1)) (fun t => INR t / INR (n - 1) / INR (points_at t (evaluated_all h)) / INR n * v6dot (slope eigs (pr_traj r) (pr_planes r) t) d)) /\
  momentum r' = v6sub (v6scal (pr_beta r) (momentum r)) (v6scal (pr_alpha r) J) /\ nth_error (pr_traj r) (n - 1) = Some T /\
  pr_traj r' = path n (se3_update_lhs T (v6sub (v6scal (pr_beta r * pr_beta r) (momentum r)) (v6scal ((1 + pr_beta r) * pr_alpha r) J))) (pr_traj r).
Proof.
  intros IN N E. pose proof (kept_nag _ _ _ _ E) as KP. split; [eapply inside_kept; eauto|]. unfold nag_pass in E.
  destruct (get_current_error eigs r) as [[e1 r1]|] eqn:E1; [|discriminate E]. destruct (grad_poses _ _) as [[gs l]|] eqn:EG; [|discriminate E].
  destruct (pass_start eigs h n r e1 r1 gs l IN N E1 EG) as (IN1 & IN2 & ET & EV & EA & EB & SZ & EC & GS & CN). pose proof (gs_eq gs _ _ _ GS CN) as GE.
  destruct (existsb _ gs) eqn:EX; [discriminate E|]. rewrite GE in EX. pose proof (proj1 (existsb_count (slope eigs (pr_traj r) (pr_planes r)) (fun t => points_at t (evaluated_all h)) _) EX) as EX2. cbv beta in EX2. rewrite EV in E. destruct (rev (pr_prev r)) as [|v older] eqn:EP; [discriminate E|]. cbv zeta in E.
  destruct (move_last _ _) as [r2|] eqn:EM; [|discriminate E]. cbn [option_map] in E. injection E as <- <-.
  destruct IN2 as (_ & NP2 & LT2 & _). destruct (move_last_spec n _ _ _ N NP2 LT2 EM) as (T & ETT & ->). cbn [with_planes with_traj with_prev pr_traj pr_alpha pr_beta pr_prev] in *. rewrite ET in *.
  split; [exact SZ|]. split; [intros t Ht; apply EX2; apply in_seq; lia|]. split; [exact EA|]. split; [exact EB|].
  split; [rewrite <- (rev_length (pr_prev r)), EP; cbn [rev]; rewrite app_length, rev_length; cbn [length]; lia|]. split; [exact EC|].
  destruct IN as (_ & NP & _). exists (nag_gradient (pr_nposes r) gs), T. split.
  { intros d. rewrite nag_dot, NP, GE, lsum_map. apply lsum_ext. intros t _. cbn [fst snd]. replace (1 / INR (n - 1) * INR t) with (INR t / INR (n - 1)) by (unfold Rdiv; ring). reflexivity. }
  unfold momentum. cbn [with_prev pr_prev rev]. rewrite rev_app_distr, rev_involutive, EP. cbn [rev app]. split; [reflexivity|]. split; [exact ETT|]. reflexivity.
Qed.
Lemma nag_defined eigs h n r : inside eigs h n r -> (2 <= n)%nat -> sizes n (evaluated_all h) -> (forall t, (1 <= t < n)%nat -> (0 < points_at t (evaluated_all h))%nat) -> pr_prev r <> [] ->
  exists e r', nag_pass eigs r = Some (e, r').
Proof.
  intros IN N SZ P PV. destruct (start_defined eigs h n r IN SZ ltac:(lia)) as (e & r1 & gs & l & E & EG). unfold nag_pass. rewrite E, EG.
  destruct (pass_start eigs h n r e r1 gs l IN N E EG) as (_ & IN2 & ET & EV & _ & _ & _ & _ & GS & CN). pose proof (gs_eq gs _ _ _ GS CN) as GE.
  assert (EX : existsb (fun q : nat * V6 * nat => (snd q =? 0)%nat) gs = false) by (rewrite GE; apply (proj2 (existsb_count (slope eigs (pr_traj r) (pr_planes r)) (fun t => points_at t (evaluated_all h)) _)); intros t I; apply in_seq in I; apply P; lia). rewrite EX, EV.
  destruct (rev (pr_prev r)) as [|v older] eqn:EP; [exfalso; apply PV; rewrite <- (rev_involutive (pr_prev r)), EP; reflexivity|]. cbv zeta.
  match goal with |- context [move_last ?dx ?x] => destruct (ready_move n dx x ltac:(lia) (inside_ready _ _ _ _ IN2 SZ)) as (r' & EM & _) end. rewrite EM. cbn [option_map]. eauto.
Qed.
(** ** Loops *)
Definition halts (prev : R) (E : nat -> R) (fuel m : nat) : Prop :=
  let d i := match i with O => prev - E 0%nat | S j => E j - E (S j) end in
  (forall i, (S i < m)%nat -> 1 / 10000 < Rabs (d i)) /\ ((m < fuel)%nat -> exists j, m = S j /\ Rabs (d j) <= 1 / 10000).
Lemma descend_trace pass single : forall fuel iters prev r r', (0 < fuel)%nat -> descend pass single fuel iters prev r = Some r' ->
  exists m (xs : nat -> preg) (E : nat -> R), (0 < m <= fuel)%nat /\ xs 0%nat = r /\ (forall i, (i < m)%nat -> pass (xs i) = Some (E i, xs (S i))) /\ r' = with_iters (xs m) (iters + m) /\
  (single = true -> m = 1%nat) /\ (single = false -> halts prev E fuel m).
Proof.
  induction fuel as [|fuel IH]; intros iters prev r r' F H; [lia|]. cbn [descend] in H. destruct (pass r) as [[e r1]|] eqn:EP; [|discriminate H].
  assert (ONE : (Rabs (prev - e) <= 1 / 10000 \/ single = true \/ fuel = 0%nat) -> r' = with_iters r1 (S iters) ->
    exists m (xs : nat -> preg) (E : nat -> R), (0 < m <= S fuel)%nat /\ xs 0%nat = r /\ (forall i, (i < m)%nat -> pass (xs i) = Some (E i, xs (S i))) /\ r' = with_iters (xs m) (iters + m) /\
      (single = true -> m = 1%nat) /\ (single = false -> halts prev E (S fuel) m)).
  { intros C ->. exists 1%nat, (fun i => match i with O => r | _ => r1 end), (fun _ => e). split; [lia|]. split; [reflexivity|]. split; [intros i Hi; destruct i; [exact EP | lia]|].
    split; [rewrite Nat.add_1_r; reflexivity|]. split; [reflexivity|]. intros SI. split; [intros i Hi; lia|]. intros HF. exists 0%nat. split; [reflexivity|]. destruct C as [C | [C | C]]; [exact C | congruence | lia]. }
  unfold Rltb in H; destruct (Rlt_dec (1 / 10000) (Rabs (prev - e))) as [L|L]; [|cbn [andb] in H; injection H as H; apply ONE; [left; lra | auto]].
  destruct single; cbn [negb andb] in H; [injection H as H; apply ONE; auto|].
  destruct fuel as [|fuel]; [cbn [descend] in H; injection H as H; apply ONE; auto|]. clear ONE.
  destruct (IH (S iters) e r1 r' ltac:(lia) H) as (m & xs & E & M & X0 & ST & ER & _ & HA). specialize (HA eq_refl). destruct HA as [H1 H2].
  exists (S m), (fun i => match i with O => r | S j => xs j end), (fun i => match i with O => e | S j => E j end).
  split; [lia|]. split; [reflexivity|]. split; [intros [|i] Hi; [rewrite X0; exact EP | apply ST; lia]|]. split; [rewrite ER; f_equal; lia|]. split; [discriminate|]. intros _. split.
  - intros [|i] Hi; [exact L|]. specialize (H1 i ltac:(lia)). destruct i; exact H1.
  - intros HF. destruct (H2 ltac:(lia)) as (j & -> & HJ). exists (S j). split; [reflexivity|]. destruct j; exact HJ.
Qed.
Lemma descend_defined (I : preg -> Prop) pass single : (forall r, I r -> exists e r', pass r = Some (e, r') /\ I r') ->
  forall fuel iters prev r, I r -> exists r', descend pass single fuel iters prev r = Some r'.
Proof.
  intros HP. induction fuel as [|fuel IH]; intros iters prev r HI; cbn [descend]; [eauto|]. destruct (HP r HI) as (e & r1 & E & I1). rewrite E. destruct (_ && _); eauto.
Qed.
Lemma ten_positive : (0 < ten_thousand)%nat. Proof. unfold ten_thousand. lia. Qed.
(** ** Members that only the momentum mode writes *)
Definition fp (r r' : preg) : Prop := pr_prev r' = pr_prev r /\ pr_alpha r' = pr_alpha r /\ pr_beta r' = pr_beta r.
Lemma fp_refl r : fp r r. Proof. repeat split. Qed.
Lemma fp_trans a b c : fp a b -> fp b c -> fp a c. Proof. intros (A & B & C) (D & E & F). repeat split; congruence. Qed.
Lemma fp_error eigs r e r' : get_current_error eigs r = Some (e, r') -> fp r r'.
Proof. unfold get_current_error. destruct (estimate_all _ _ _) as [[x l]|]; [|discriminate]. cbn. intros H. injection H as _ <-. repeat split. Qed.
Lemma fp_calc eigs r e r' : pr_calculate_error eigs r = Some (r', e) -> fp r r'.
Proof. unfold pr_calculate_error. destruct (get_current_error eigs r) as [[x r1]|] eqn:E; [|discriminate]. cbn. intros H. injection H as <- _. eapply fp_error; eauto. Qed.
Lemma fp_gh eigs r q r' : pr_gradient_hessian eigs r = Some (r', q) -> fp r r'.
Proof.
  unfold pr_gradient_hessian. destruct (get_current_error eigs r) as [[x r1]|] eqn:E; [|discriminate]. destruct (gh_poses _ _ _) as [[[g h] l]|]; [|discriminate].
  intros H. injection H as <- _. apply fp_error in E. exact E.
Qed.
Lemma fp_move dx r r' : move_last dx r = Some r' -> fp r r'.
Proof.
  unfold move_last. destruct (last_pose _); [|discriminate]. cbv zeta. destruct (interpolate_middle _ _ _); [|discriminate]. cbn. intros H. injection H as <-. repeat split.
Qed.
Lemma fp_restore eigs r : fp r (pr_restore eigs r).
Proof.
  unfold pr_restore. destruct (interpolate_middle _ _ _) as [tr'|]; [|apply fp_refl].
  destruct (get_current_error eigs (with_traj r tr')) as [[e r1]|] eqn:E; [|repeat split]. apply fp_error in E. exact E.
Qed.
Lemma fp_book eigs r : fp r (bookkeep_state (plane_problem eigs) r).
Proof. cbn. unfold pr_bookkeep_state. destruct (get_last_pose r); repeat split. Qed.
Lemma fp_run eigs inv m mx r r' : run_optimizer eigs inv m mx r = Some r' -> fp r r'.
Proof.
  unfold run_optimizer. destruct (opt_solve _ _ _ _ _ _) as [[o k]|] eqn:E; [|discriminate]. intros H. injection H as <-. cbn [fst snd].
  assert (G : fp r (o_x o)); [|exact G]. refine (oi_solve (plane_problem eigs) inv (fp r) _ _ _ _ _ m mx (1 / 100) _ o k _ E); cbn.
  - intros x x' e K C. eapply fp_trans; [exact K|]. eapply fp_calc; eauto.
  - intros x x' q K C. eapply fp_trans; [exact K|]. eapply fp_gh; eauto.
  - intros dx x x' K C. eapply fp_trans; [exact K|]. eapply fp_move; eauto.
  - intros x K. eapply fp_trans; [exact K|]. apply (fp_book eigs).
  - intros x K. eapply fp_trans; [exact K|]. apply fp_restore.
  - apply fp_refl.
Qed.
Lemma fp_all_poses eigs r e r' : all_poses_pass eigs r = Some (e, r') -> fp r r'.
Proof.
  unfold all_poses_pass. destruct (get_current_error eigs r) as [[e1 r1]|] eqn:E; [|discriminate]. apply fp_error in E.
  destruct (grad_poses _ _) as [[gs l]|]; [|discriminate]. cbv zeta. destruct (_ =? 0)%nat; [discriminate|]. destruct (move_poses _ _ _) as [tr|]; [|discriminate].
  intros H. injection H as _ <-. exact E.
Qed.
Lemma fp_init_poses jacobi ys ts : forall r c r', init_poses jacobi ys ts r = Some (c, r') -> fp r r'.
Proof.
  induction ts as [|t ts IH]; intros r c r' H; cbn [init_poses] in H; [injection H as _ <-; apply fp_refl|].
  destruct (init_pairs _ _ _ _); [|discriminate H]. destruct (arun _ _ _ _) as [[[|a] T]|]; [injection H as _ <-; apply fp_refl | | discriminate H].
  destruct (_ <? _)%nat; [|discriminate H]. apply IH in H. exact H.
Qed.
Lemma fp_initialize jacobi r c r' : solve_initialize jacobi r = Some (c, r') -> fp r r'.
Proof. unfold solve_initialize. destruct (init_first _) as [[ys l]|]; [|discriminate]. intros H. apply fp_init_poses in H. exact H. Qed.
(** the number of velocities and the parameters *)
Definition fl (r r' : preg) : Prop := length (pr_prev r') = length (pr_prev r) /\ pr_alpha r' = pr_alpha r /\ pr_beta r' = pr_beta r.
Lemma fp_fl r r' : fp r r' -> fl r r'. Proof. intros (A & B & C). split; [congruence | auto]. Qed.
Lemma fl_nag eigs r e r' : nag_pass eigs r = Some (e, r') -> fl r r'.
Proof.
  unfold nag_pass. destruct (get_current_error eigs r) as [[e1 r1]|] eqn:E; [|discriminate]. apply fp_error in E. destruct E as (E1 & E2 & E3).
  destruct (grad_poses _ _) as [[gs l]|]; [|discriminate]. destruct (existsb _ _); [discriminate|]. destruct (rev (pr_prev r1)) as [|v older] eqn:EP; [discriminate|].
  cbv zeta. destruct (move_last _ _) as [r2|] eqn:EM; [|discriminate]. intros H. injection H as _ <-. apply fp_move in EM. destruct EM as (M1 & M2 & M3). cbn [with_planes pr_prev pr_alpha pr_beta] in *.
  split; [|cbn [with_prev pr_alpha pr_beta]; split; congruence]. cbn [with_prev pr_prev]. rewrite <- E1, <- (rev_length (pr_prev r1)), EP. cbn [rev]. rewrite app_length, rev_length. cbn [length]. lia.
Qed.
Lemma parameters_solve eigs inv jacobi m s r c r' : preg_solve eigs inv jacobi m s r = Some (c, r') -> fl r r' /\ (m <> GRADIENT_BENGIOS_NAG -> fp r r').
Proof.
  unfold preg_solve. destruct (get_current_error eigs r) as [[e r0]|] eqn:E; [|discriminate]. apply fp_error in E. cbv zeta. intros H.
  assert (G : (m <> GRADIENT_BENGIOS_NAG -> fp r r') -> (m = GRADIENT_BENGIOS_NAG -> fl r r') -> fl r r' /\ (m <> GRADIENT_BENGIOS_NAG -> fp r r')).
  { intros A B. split; [|exact A]. destruct m; first [apply fp_fl, A; discriminate | apply B; reflexivity]. }
  assert (W : fp r (with_initial r0 e)) by exact E. apply G; clear G; destruct m; intros M; try (congruence || discriminate M); clear M.
  - eapply fp_trans; [exact W|]. eapply fp_initialize; eauto.
  - injection H as _ <-. exact W.
  - destruct (descend _ _ _ _ _ _) as [r2|] eqn:D; [|discriminate H]. cbn [option_map] in H. injection H as _ <-. refine (descend_inv (fp r) _ _ _ _ _ _ _ _ _ W D); [|intros x n K; exact K].
    intros x y x' K P. eapply fp_trans; [exact K | eapply fp_all_poses; eauto].
  - destruct (run_optimizer _ _ _ _ _) as [r2|] eqn:D; [|discriminate H]. cbn [option_map] in H. injection H as _ <-. eapply fp_trans; [exact W|]. eapply fp_run; eauto.
  - injection H as _ <-. exact W.
  - destruct (run_optimizer _ _ _ _ _) as [r2|] eqn:D; [|discriminate H]. cbn [option_map] in H. injection H as _ <-. eapply fp_trans; [exact W|]. eapply fp_run; eauto.
  - destruct (run_optimizer _ _ _ _ _) as [r2|] eqn:D; [|discriminate H]. cbn [option_map] in H. injection H as _ <-. eapply fp_trans; [exact W|]. eapply fp_run; eauto.
  - destruct (descend _ _ _ _ _ _) as [r2|] eqn:D; [|discriminate H]. cbn [option_map] in H. injection H as _ <-. apply fp_fl in W. refine (descend_inv (fl r) _ _ _ _ _ _ _ _ _ W D); [|intros x n K; exact K].
    intros x y x' (K1 & K2 & K3) P. apply fl_nag in P. destruct P as (P1 & P2 & P3). split; [|split]; congruence.
Qed.
Lemma members_run k ops r : reg_run k ops preg_new = Some r -> length (pr_prev r) = pr_nposes r /\ pr_alpha r = 3 / 4 /\ pr_beta r = 1 / 10 /\ (at_rest ops = true -> Forall (eq v6zero) (pr_prev r)).
Proof.
  revert r. induction ops as [|o ops IH] using rev_ind; intros r E; [injection E as <-; repeat split; constructor|].
  apply reg_run_snoc in E. destruct E as (q & E1 & E2). destruct (IH q E1) as (A & B & C & D). clear IH E1.
  unfold at_rest in *. rewrite fold_left_app. cbn [fold_left].
  assert (K : fp q r -> pr_nposes r = pr_nposes q -> forall b, (b = true -> fold_left (fun b o => match o with RSet _ _ | RReset => true | RSolve GRADIENT_BENGIOS_NAG _ => false | _ => b end) ops true = true) ->
    length (pr_prev r) = pr_nposes r /\ pr_alpha r = 3 / 4 /\ pr_beta r = 1 / 10 /\ (b = true -> Forall (eq v6zero) (pr_prev r))).
  { intros (K1 & K2 & K3) K4 b KB. rewrite K1, K2, K3, K4. split; [exact A|]. split; [exact B|]. split; [exact C|]. intros F. apply D, KB, F. }
  destruct o as [a b|i|i n pops|i t x| | | | T|m s]; cbn [reg_step] in E2.
  - injection E2 as <-. cbn. rewrite repeat_length. split; [reflexivity|]. split; [exact B|]. split; [exact C|]. intros _. clear. induction b; constructor; auto.
  - injection E2 as <-. (refine (K _ _ _ _); [repeat split | reflexivity | auto]).
  - destruct (plane_run _ _ _); [|discriminate E2]. injection E2 as <-. (refine (K _ _ _ _); [repeat split | reflexivity | auto]).
  - unfold plane_push_back_point in E2. destruct (push_in _ _ _ _); [|discriminate E2]. injection E2 as <-. (refine (K _ _ _ _); [repeat split | reflexivity | auto]).
  - destruct (get_current_error _ q) as [[e r1]|] eqn:EP; [|discriminate E2]. injection E2 as <-. (refine (K _ _ _ _); [eapply fp_error; eauto | apply kept_error in EP; apply (k_n _ _ _ (proj1 EP)) | auto]).
  - injection E2 as <-. (refine (K _ _ _ _); [repeat split | reflexivity | auto]).
  - assert (ER : r = reset_solution q) by congruence. subst r. cbn. rewrite repeat_length. split; [reflexivity|]. split; [exact B|]. split; [exact C|]. intros _. clear. induction (pr_nposes q); constructor; auto.
  - apply set_last_spec in E2. destruct E2 as [E2 | (_ & E2)]; subst r; (refine (K _ _ _ _); [repeat split | reflexivity | auto]).
  - destruct (preg_solve _ _ _ _ _ _) as [[c r1]|] eqn:EP; [|discriminate E2]. injection E2 as <-. cbn [snd]. pose proof EP as EK. apply kept_solve in EK. destruct EK as (e & r0 & E0 & KK).
    assert (NP : pr_nposes r1 = pr_nposes q) by (rewrite (k_n _ _ _ KK); apply kept_error in E0; apply (k_n _ _ _ (proj1 E0))).
    destruct (parameters_solve _ _ _ _ _ _ _ _ EP) as ((L1 & L2 & L3) & L4). split; [congruence|]. split; [congruence|]. split; [congruence|]. intros F.
    destruct L4 as (L4 & _); [intros ->; discriminate F|]. rewrite L4. apply D. destruct m; first [exact F | discriminate F].
Qed.
(** ** The history after an evaluation *)
Lemma ev_used n ops : used n (ops ++ [Estimate []]) = used n ops.
Proof. unfold used at 1. rewrite snapshot_estimate. reflexivity. Qed.
Lemma ev_pushed ops t : pushed (ops ++ [Estimate []]) t = pushed ops t.
Proof. rewrite pushed_app. apply app_nil_r. Qed.
Lemma ev_points t h : points_at t (evaluated_all h) = points_at t h.
Proof. unfold points_at, evaluated_all, extend. rewrite map_map. f_equal. apply map_ext. intros [i [n ops]]. cbn [fst snd]. rewrite ev_pushed. reflexivity. Qed.
Lemma ev_sizes n h : sizes n (evaluated_all h) <-> sizes n h.
Proof. unfold sizes, evaluated_all, extend. rewrite Forall_map. split; intros F; eapply Forall_impl; try exact F; intros [i [m ops]] H; exact H. Qed.
Lemma ev_distinct h tr : distinct (evaluated_all h) tr <-> distinct h tr.
Proof. unfold distinct, evaluated_all, extend. rewrite Forall_map. split; intros F; eapply Forall_impl; try exact F; intros [i [m ops]] H; cbn [fst snd] in *; [rewrite <- ev_used | rewrite ev_used]; exact H. Qed.
Lemma ev_total tr h e : total_error tr (evaluated_all h) e <-> total_error tr h e.
Proof.
  revert e. induction h as [|[i [n ops]] h IH]; intros e; [tauto|]. change (evaluated_all ((i, (n, ops)) :: h)) with ((i, (n, ops ++ [Estimate []])) :: evaluated_all h).
  split; intros H; inversion H as [|? ? ? ? a b L T]; subst; constructor; try (apply IH; exact T); [rewrite <- ev_used | rewrite ev_used]; exact L.
Qed.
Lemma ev_gradient h tr g : gradient_at (evaluated_all h) tr g -> gradient_at h tr g.
Proof. intros H d E HE. apply H. intros s. apply ev_total. apply HE. Qed.
(** ** Solving *)
Lemma solve_inside k h r a e r0 : after k h r -> (0 < fst h)%nat -> get_current_error (k_eigs k) (set_alpha_parameter a r) = Some (e, r0) -> inside (k_eigs k) (snd h) (fst h) (with_initial r0 e) /\ pr_traj r0 = pr_traj r /\ pr_alpha r0 = a /\ fp (set_alpha_parameter a r) r0.
Proof.
  intros AF N E. destruct (after_length k h r AF N) as [NP LT]. pose proof (af_tracked _ _ _ AF) as [_ TK]. pose proof (kept_error _ _ _ _ E) as (KE & ET & EB). pose proof (fp_error _ _ _ _ E) as FP.
  unfold get_current_error in E. destruct (estimate_all _ _ _) as [[e1 l1]|] eqn:EA; [|discriminate E]. injection E as <- <-. cbn [set_alpha_parameter pr_planes pr_traj] in *. split; [|split; [reflexivity|split; [reflexivity | exact FP]]].
  split; [eapply tracked_estimate; eauto|]. split; [exact NP|]. split; [exact LT|]. exact (af_hom _ _ _ AF).
Qed.
Lemma solve_error_defined k h r a : after k h r -> (0 < fst h)%nat -> sizes (fst h) (snd h) -> exists e r0, get_current_error (k_eigs k) (set_alpha_parameter a r) = Some (e, r0).
Proof.
  intros AF N SZ. destruct (after_length k h r AF N) as [NP LT]. pose proof (af_tracked _ _ _ AF) as [_ TK].
  destruct (estimated_all (k_eigs k) (pr_traj r) _ _ TK) as (e & l & E); [rewrite LT; eapply Forall_impl; [|exact SZ]; intros q Hq; cbn in Hq; lia|].
  unfold get_current_error. cbn [set_alpha_parameter pr_planes pr_traj]. rewrite E. cbn [option_map]. eauto.
Qed.
Lemma trace_inside (I : preg -> Prop) pass (xs : nat -> preg) (E : nat -> R) m : (forall r e r', I r -> pass r = Some (e, r') -> I r') -> I (xs 0%nat) -> (forall i, (i < m)%nat -> pass (xs i) = Some (E i, xs (S i))) ->
  forall i, (i <= m)%nat -> I (xs i).
Proof. intros HP H0 ST. induction i as [|i IH]; intros Hi; [exact H0|]. eapply HP; [apply IH; lia | apply ST; lia]. Qed.
Lemma all_poses_solve k a h r s c r' : (forall Q, m4tr Q = Q -> exact4 (k_eigs k) Q) -> after k h r -> (2 <= fst h)%nat ->
  preg_solve (k_eigs k) (k_inv k) (k_svd k) GRADIENT_ALL_POSES s (set_alpha_parameter a r) = Some (c, r') ->
  c = 0%nat /\ sizes (fst h) (snd h) /\ (0 < points_at (fst h - 1) (snd h))%nat /\ (0 < pr_iters r' <= 100 * 100)%nat /\
  exists (trs : nat -> list M4) (E : nat -> R), trs 0%nat = pr_traj r /\ trs (pr_iters r') = pr_traj r' /\ stops E (pr_iters r') /\
  forall i, (i < pr_iters r')%nat -> total_error (trs i) (snd h) (E i) /\ descent_step (snd h) (a / INR (points_at (fst h - 1) (snd h)) / INR (fst h)) (trs i) (trs (S i)).
Proof.
  intros X AF N H. unfold preg_solve in H. destruct (get_current_error _ _) as [[e r0]|] eqn:E0; [|discriminate H]. destruct (solve_inside k h r a e r0 AF ltac:(lia) E0) as (IN & ET & EA & _). cbv zeta in H.
  destruct (descend _ _ _ _ _ _) as [r2|] eqn:D; [|discriminate H]. cbn [option_map] in H. injection H as <- <-. split; [reflexivity|].
  destruct (descend_trace _ _ _ _ _ _ _ ten_positive D) as (m & xs & E & M & X0 & ST & -> & _ & HA). specialize (HA eq_refl). cbn [with_iters pr_iters pr_traj Nat.add].
  assert (II : forall i, (i <= m)%nat -> inside (k_eigs k) (snd h) (fst h) (xs i) /\ pr_alpha (xs i) = a).
  { apply (trace_inside (fun x => inside (k_eigs k) (snd h) (fst h) x /\ pr_alpha x = a) (all_poses_pass (k_eigs k)) xs E m); [|rewrite X0; split; [exact IN | exact EA]|exact ST]. intros x y x' (I1 & I2) P. destruct (all_poses_inv _ _ _ _ _ _ I1 N P) as (J1 & _ & _ & J2 & _). split; [exact J1 | congruence]. }
  pose proof (fun i Hi => all_poses_inv (k_eigs k) (snd h) (fst h) (xs i) (E i) (xs (S i)) (proj1 (II i (Nat.lt_le_incl _ _ Hi))) N (ST i Hi)) as PS.
  destruct (PS 0%nat ltac:(lia)) as (_ & SZ & PT & _). rewrite ev_sizes in SZ. rewrite ev_points in PT. split; [exact SZ|]. split; [exact PT|]. split; [exact M|].
  exists (fun i => pr_traj (xs i)), E. split; [rewrite X0; exact ET|]. split; [reflexivity|]. split; [exact HA|]. intros i Hi. destruct (PS i Hi) as (_ & SZ' & _ & _ & EC & TR).
  destruct (II i ltac:(lia)) as ((TK & NP & LT & HM) & AL). apply Forall_inv_tail in HM. rewrite AL, ev_points in TR.
  split; [rewrite EC; apply ev_total; apply total_ecost; auto; rewrite LT; eapply Forall_impl; [|exact SZ']; intros q Hq; cbn in Hq; lia|].
  exists (slope (k_eigs k) (pr_traj (xs i)) (pr_planes (xs i))). split; [|exact TR]. intros DI. apply ev_gradient. apply slope_gradient; auto; [rewrite LT; exact SZ' | apply ev_distinct; exact DI].
Qed.
Lemma all_poses_solvable k a h r s : after k h r -> (2 <= fst h)%nat -> sizes (fst h) (snd h) -> (0 < points_at (fst h - 1) (snd h))%nat ->
  exists c r', preg_solve (k_eigs k) (k_inv k) (k_svd k) GRADIENT_ALL_POSES s (set_alpha_parameter a r) = Some (c, r').
Proof.
  intros AF N SZ P. destruct (solve_error_defined k h r a AF ltac:(lia) SZ) as (e & r0 & E0). unfold preg_solve. rewrite E0. cbv zeta. destruct (solve_inside k h r a e r0 AF ltac:(lia) E0) as (IN & _).
  destruct (descend_defined (inside (k_eigs k) (snd h) (fst h)) (all_poses_pass (k_eigs k)) false) with (fuel := ten_thousand) (iters := 0%nat) (prev := error_1e20) (r := with_initial r0 e) as (r' & D); [|exact IN|rewrite D; cbn [option_map]; eauto].
  intros x I1. destruct (all_poses_defined _ _ _ _ I1 N) as (y & x' & Q); [apply ev_sizes; exact SZ | rewrite ev_points; exact P|]. exists y, x'. split; [exact Q|]. apply (all_poses_inv _ _ _ _ _ _ I1 N Q).
Qed.
Lemma zero_last l : Forall (eq v6zero) l -> match rev l with [] => v6zero | v :: _ => v end = v6zero.
Proof. intros F. apply Forall_rev in F. destruct F as [|v t E F]; auto. Qed.
Lemma nag_solve k a h r s c r' : (forall Q, m4tr Q = Q -> exact4 (k_eigs k) Q) -> after k h r -> (2 <= fst h)%nat ->
  preg_solve (k_eigs k) (k_inv k) (k_svd k) GRADIENT_BENGIOS_NAG s (set_alpha_parameter a r) = Some (c, r') ->
  c = 0%nat /\ sizes (fst h) (snd h) /\ (forall t, (1 <= t < fst h)%nat -> (0 < points_at t (snd h))%nat) /\ (0 < pr_iters r' <= 100 * 100)%nat /\
  exists (xs : nat -> list M4 * V6) (E : nat -> R), fst (xs 0%nat) = pr_traj r /\ snd (xs 0%nat) = momentum r /\ fst (xs (pr_iters r')) = pr_traj r' /\ (if s then pr_iters r' = 1%nat else stops E (pr_iters r')) /\
  forall i, (i < pr_iters r')%nat -> total_error (fst (xs i)) (snd h) (E i) /\ momentum_step (snd h) a (pr_beta r) (fst h) (xs i) (xs (S i)).
Proof.
  intros X AF N H. unfold preg_solve in H. destruct (get_current_error _ _) as [[e r0]|] eqn:E0; [|discriminate H]. destruct (solve_inside k h r a e r0 AF ltac:(lia) E0) as (IN & ET & EA & (EV & _ & EB)). cbv zeta in H.
  destruct (descend _ _ _ _ _ _) as [r2|] eqn:D; [|discriminate H]. cbn [option_map] in H. injection H as <- <-. split; [reflexivity|].
  destruct (descend_trace _ _ _ _ _ _ _ ten_positive D) as (m & xs & E & M & X0 & ST & -> & HS & HA). cbn [with_iters pr_iters pr_traj Nat.add].
  assert (II : forall i, (i <= m)%nat -> inside (k_eigs k) (snd h) (fst h) (xs i) /\ pr_alpha (xs i) = a /\ pr_beta (xs i) = pr_beta r).
  { apply (trace_inside (fun x => inside (k_eigs k) (snd h) (fst h) x /\ pr_alpha x = a /\ pr_beta x = pr_beta r) (nag_pass (k_eigs k)) xs E m); [|rewrite X0; split; [exact IN | split; [exact EA | exact EB]]|exact ST]. intros x y x' (I1 & I2 & I3) P.
    destruct (nag_inv _ _ _ _ _ _ I1 N P) as (J1 & _ & _ & J2 & J3 & _). split; [exact J1 | split; congruence]. }
  pose proof (fun i Hi => nag_inv (k_eigs k) (snd h) (fst h) (xs i) (E i) (xs (S i)) (proj1 (II i (Nat.lt_le_incl _ _ Hi))) N (ST i Hi)) as PS.
  destruct (PS 0%nat ltac:(lia)) as (_ & SZ & PT & _). rewrite ev_sizes in SZ. split; [exact SZ|]. split; [intros t Ht; rewrite <- ev_points; apply PT; exact Ht|]. split; [exact M|].
  exists (fun i => (pr_traj (xs i), momentum (xs i))), E. cbn [fst snd]. split; [rewrite X0; exact ET|]. split; [rewrite X0; unfold momentum; cbn [with_initial pr_prev]; rewrite EV; reflexivity|].
  split; [reflexivity|]. split; [destruct s; [apply HS; reflexivity | apply HA; reflexivity]|].
  intros i Hi. destruct (PS i Hi) as (_ & SZ' & _ & _ & _ & _ & EC & J & T & EJ & EM & ETT & TR).
  destruct (II i ltac:(lia)) as ((TK & NP & LT & HM) & AL & BE). apply Forall_inv_tail in HM. rewrite AL, BE in TR, EM.
  split; [rewrite EC; apply ev_total; apply total_ecost; auto; rewrite LT; eapply Forall_impl; [|exact SZ']; intros q Hq; cbn in Hq; lia|].
  exists (slope (k_eigs k) (pr_traj (xs i)) (pr_planes (xs i))), J, T. cbn [fst snd].
  split; [intros DI; apply ev_gradient; apply slope_gradient; auto; [rewrite LT; exact SZ' | apply ev_distinct; exact DI]|].
  split; [intros d; rewrite EJ; apply lsum_ext; intros t _; rewrite ev_points; reflexivity|]. split; [exact EM|]. split; [exact ETT|].
  split; [rewrite TR, path_nth, Nat.eqb_refl by lia; reflexivity|]. split; [rewrite TR, path_length; exact LT|]. split; [|rewrite TR; apply path_velocity; [exact N | exact LT]].
  rewrite TR, path_nth by lia. destruct (Nat.eqb_spec 0 (fst h - 1)); [lia|]. reflexivity.
Qed.
Lemma nag_solvable k a h r s : after k h r -> (2 <= fst h)%nat -> sizes (fst h) (snd h) -> (forall t, (1 <= t < fst h)%nat -> (0 < points_at t (snd h))%nat) -> length (pr_prev r) = pr_nposes r ->
  exists c r', preg_solve (k_eigs k) (k_inv k) (k_svd k) GRADIENT_BENGIOS_NAG s (set_alpha_parameter a r) = Some (c, r').
Proof.
  intros AF N SZ P LP. destruct (solve_error_defined k h r a AF ltac:(lia) SZ) as (e & r0 & E0). unfold preg_solve. rewrite E0. cbv zeta. destruct (solve_inside k h r a e r0 AF ltac:(lia) E0) as (IN & _ & _ & (EV & _)).
  destruct (after_length k h r AF ltac:(lia)) as [NP _].
  destruct (descend_defined (fun x => inside (k_eigs k) (snd h) (fst h) x /\ (0 < length (pr_prev x))%nat) (nag_pass (k_eigs k)) s) with (fuel := ten_thousand) (iters := 0%nat) (prev := error_1e20) (r := with_initial r0 e) as (r' & D);
    [|split; [exact IN | cbn [with_initial pr_prev]; rewrite EV; cbn [set_alpha_parameter pr_prev]; lia]|rewrite D; cbn [option_map]; eauto].
  intros x (I1 & I2). destruct (nag_defined _ _ _ _ I1 N) as (y & x' & Q); [apply ev_sizes; exact SZ | intros t Ht; rewrite ev_points; apply P; exact Ht | intros Z; rewrite Z in I2; cbn in I2; lia|]. exists y, x'. split; [exact Q|].
  destruct (nag_inv _ _ _ _ _ _ I1 N Q) as (J1 & _ & _ & _ & _ & J2 & _). split; [exact J1 | lia].
Qed.
(** ** Small steps go down *)
Lemma total_exists (f : M4 -> eigen4) tr h : (forall Q, m4tr Q = Q -> exact4 f Q) -> total_error tr h (lsum h (fun q : entry => e4_val (f (scatter tr (used (fst (snd q)) (snd (snd q))))))).
Proof.
  intros X. induction h as [|[i [n ops]] h IH]; [constructor|]. rewrite lsum_cons. constructor; [|exact IH]. cbn [fst snd].
  destruct (eigen_least _ _ (X _ (scatter_sym tr (used n ops)))) as [[(v & A & B) C] _]. split; [exists v; rewrite <- quad4_scatter; auto | intros u U; rewrite <- quad4_scatter; auto].
Qed.
Lemma lsum_only (f : nat -> R) t n a : (a <= t < a + n)%nat -> (forall i, i <> t -> f i = 0) -> lsum (seq a n) f = f t.
Proof.
  revert a. induction n as [|n IH]; intros a H Z; [lia|]. cbn [seq]. rewrite lsum_cons. destruct (Nat.eq_dec a t) as [->|NE].
  - rewrite (lsum_ext _ _ (fun _ => 0)) by (intros i I; apply in_seq in I; apply Z; lia). assert (S0 : forall l : list nat, lsum l (fun _ => 0) = 0) by (induction l as [|x l IL]; [reflexivity | rewrite lsum_cons, IL; ring]). rewrite S0. ring.
  - rewrite (Z a NE), IH by (auto; lia). ring.
Qed.
Lemma v6dot_ext u v : (forall d, v6dot u d = v6dot v d) -> u = v.
Proof.
  intros H. destruct u as [[a b c] [d e f]], v as [[a' b' c'] [d' e' f']].
  pose proof (H (mkV6 (mkV3 1 0 0) v3zero)) as H1. pose proof (H (mkV6 (mkV3 0 1 0) v3zero)) as H2. pose proof (H (mkV6 (mkV3 0 0 1) v3zero)) as H3.
  pose proof (H (mkV6 v3zero (mkV3 1 0 0))) as H4. pose proof (H (mkV6 v3zero (mkV3 0 1 0))) as H5. pose proof (H (mkV6 v3zero (mkV3 0 0 1))) as H6. lin_unfold_in H1. lin_unfold_in H2. lin_unfold_in H3. lin_unfold_in H4. lin_unfold_in H5. lin_unfold_in H6.
  f_equal; f_equal; lra.
Qed.
Lemma gradient_unique h tr g g' : gradient_at h tr g -> gradient_at h tr g' -> forall t, (t < length tr)%nat -> g t = g' t.
Proof.
  intros A B t Ht. destruct exact4_all_exists as [f X]. apply v6dot_ext. intros xi. set (d := fun i => if Nat.eqb i t then xi else v6zero).
  set (E := fun s => lsum h (fun q : entry => e4_val (f (scatter (moved d s tr) (used (fst (snd q)) (snd (snd q))))))).
  assert (HE : forall s, total_error (moved d s tr) h (E s)) by (intros s; apply total_exists; exact X).
  pose proof (uniqueness_limite _ _ _ _ (A d E HE) (B d E HE)) as U.
  assert (Z : forall (k : nat -> V6) i, i <> t -> v6dot (k i) (d i) = 0). { intros k i NE. unfold d. destruct (Nat.eqb_spec i t); [congruence|]. destruct (k i) as [[? ? ?] [? ? ?]]; lin. }
  rewrite (lsum_only (fun i => v6dot (g i) (d i)) t) in U by (auto; lia). rewrite (lsum_only (fun i => v6dot (g' i) (d i)) t) in U by (auto; lia). unfold d in U. rewrite Nat.eqb_refl in U. exact U.
Qed.
Lemma moved_ext d d' s tr : (forall t, (t < length tr)%nat -> d t = d' t) -> moved d s tr = moved d' s tr.
Proof.
  intros H. apply nth_error_ext. intros t. rewrite !moved_nth. destruct (nth_error tr t) as [T|] eqn:E; auto. cbn [option_map]. rewrite H; auto. apply nth_error_Some. congruence.
Qed.
Lemma v6dot_pos g : g <> v6zero -> 0 < v6dot g g.
Proof.
  intros H. destruct g as [[a b c] [d e f]]. unfold v6dot, v3dot. cbn [v6w v6v vx vy vz]. apply Rnot_le_lt. intros L. apply H. unfold v6zero, v3zero.
  assert (a = 0 /\ b = 0 /\ c = 0 /\ d = 0 /\ e = 0 /\ f = 0) as (-> & -> & -> & -> & -> & ->) by (repeat split; nra). reflexivity.
Qed.
Lemma downhill h tr g : Forall hom4 tr -> gradient_at h tr g -> (exists t, (0 < t < length tr)%nat /\ g t <> v6zero) ->
  exists c0, 0 < c0 /\ forall c e e', 0 < c < c0 -> total_error tr h e -> total_error (moved (fun t => if Nat.eqb t 0 then v6zero else g t) (- c) tr) h e' -> e' < e.
Proof.
  intros HM G (t & Ht & NZ). destruct exact4_all_exists as [f X]. set (d := fun t => if Nat.eqb t 0 then v6zero else g t).
  set (E := fun s => lsum h (fun q : entry => e4_val (f (scatter (moved d s tr) (used (fst (snd q)) (snd (snd q))))))).
  assert (HE : forall s, total_error (moved d s tr) h (E s)) by (intros s; apply total_exists; exact X). pose proof (G d E HE) as D. set (L := lsum _ _) in D.
  assert (P : 0 < L).
  { apply Rlt_le_trans with (lsum (seq 0 (length tr)) (fun i => if Nat.eqb i t then v6dot (g i) (g i) else 0)).
    - rewrite (lsum_only _ t); [rewrite Nat.eqb_refl; apply v6dot_pos; exact NZ | lia|]. intros i NE. destruct (Nat.eqb_spec i t); [congruence | reflexivity].
    - unfold L. apply lsum_le. intros i I. unfold d. destruct (Nat.eqb_spec i t) as [->|NE].
      + destruct (Nat.eqb_spec t 0); [lia|]. lra.
      + destruct (Nat.eqb_spec i 0) as [->|]; [destruct (g 0%nat) as [[? ? ?] [? ? ?]]; right; lin|]. destruct (g i) as [[a1 a2 a3] [a4 a5 a6]]. unfold v6dot, v3dot. cbn [v6w v6v vx vy vz]. nra. }
  destruct (D (L / 2) ltac:(lra)) as (del & HD). exists del. split; [apply cond_pos|]. intros c e e' Hc T T'.
  rewrite <- (moved_0 d tr HM) in T. rewrite (total_unique _ _ _ _ T (HE 0)). fold d in T'. rewrite (total_unique _ _ _ _ T' (HE (- c))).
  assert (NC : - c <> 0) by lra. specialize (HD (- c) NC ltac:(rewrite Rabs_Ropp, Rabs_pos_eq; lra)). rewrite Rplus_0_l in HD. apply Rabs_def2 in HD. destruct HD as [_ HD].
  assert (Q : L / 2 < (E (- c) - E 0) / - c) by lra. apply (Rmult_lt_compat_r c) in Q; [|lra]. replace ((E (- c) - E 0) / - c * c) with (E 0 - E (- c)) in Q by (field; lra). nra.
Qed.
(** ** What a solve needs *)
Lemma all_poses_needs k a h r s c r' : after k h r -> (2 <= fst h)%nat -> preg_solve (k_eigs k) (k_inv k) (k_svd k) GRADIENT_ALL_POSES s (set_alpha_parameter a r) = Some (c, r') ->
  sizes (fst h) (snd h) /\ (0 < points_at (fst h - 1) (snd h))%nat.
Proof.
  intros AF N H. unfold preg_solve in H. destruct (get_current_error _ _) as [[e r0]|] eqn:E0; [|discriminate H]. destruct (solve_inside k h r a e r0 AF ltac:(lia) E0) as (IN & _). cbv zeta in H.
  destruct (descend _ _ _ _ _ _) as [r2|] eqn:D; [|discriminate H]. destruct (descend_trace _ _ _ _ _ _ _ ten_positive D) as (m & xs & E & M & X0 & ST & _). specialize (ST 0%nat ltac:(lia)). rewrite X0 in ST.
  destruct (all_poses_inv _ _ _ _ _ _ IN N ST) as (_ & SZ & PT & _). rewrite ev_sizes in SZ. rewrite ev_points in PT. auto.
Qed.
Lemma nag_needs k a h r s c r' : after k h r -> (2 <= fst h)%nat -> preg_solve (k_eigs k) (k_inv k) (k_svd k) GRADIENT_BENGIOS_NAG s (set_alpha_parameter a r) = Some (c, r') ->
  sizes (fst h) (snd h) /\ forall t, (1 <= t < fst h)%nat -> (0 < points_at t (snd h))%nat.
Proof.
  intros AF N H. unfold preg_solve in H. destruct (get_current_error _ _) as [[e r0]|] eqn:E0; [|discriminate H]. destruct (solve_inside k h r a e r0 AF ltac:(lia) E0) as (IN & _). cbv zeta in H.
  destruct (descend _ _ _ _ _ _) as [r2|] eqn:D; [|discriminate H]. destruct (descend_trace _ _ _ _ _ _ _ ten_positive D) as (m & xs & E & M & X0 & ST & _). specialize (ST 0%nat ltac:(lia)). rewrite X0 in ST.
  destruct (nag_inv _ _ _ _ _ _ IN N ST) as (_ & SZ & PT & _). rewrite ev_sizes in SZ. split; [exact SZ|]. intros t Ht. rewrite <- ev_points. apply PT. exact Ht.
Qed.
(** the default step is the one set by set_alpha_parameter (0.75) *)
Lemma alpha_same r : set_alpha_parameter (pr_alpha r) r = r. Proof. destruct r. reflexivity. Qed.
