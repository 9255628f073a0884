(** INITIALIZE of a PlaneRegistration. *)
Require Import Reals List Arith Lia Lra Psatz Bool.
From Verif Require Import Lin LinFacts SO3 SE3 SpecGeom SE3Alg Factors3DLn Sums Registration SpecRegistration RegistrationProofs ArunProofs Optimizer OptimizerProofs Planes SpecPlanes PlanesProofs PlanesMore SpecPlaneReg PlaneRegProofs PlaneRegMore PlaneRegSolve.
Import ListNotations.
Local Open Scope R_scope.

Definition settled (N : nat) (a : entry) (q : nat * plane) : Prop :=
  shape N (all_pushed N (snd (snd a))) (snd q) /\ pl_S (snd q) = map matrix_S (all_pushed N (snd (snd a))).
Lemma seen_case t a : (length (pushed (snd (snd a)) t) =? 0)%nat = negb (seen t a).
Proof. unfold seen. rewrite negb_involutive. reflexivity. Qed.
Lemma settled_number N a q t : settled N a q -> (t < N)%nat -> get_number_points t (snd q) = Some (length (pushed (snd (snd a)) t)).
Proof. intros [[_ B _ _] _] H. unfold get_number_points. rewrite B, all_pushed_nth by auto. reflexivity. Qed.
Lemma settled_mean N a q t : settled N a q -> (t < N)%nat -> seen t a = true -> mean_at t (snd q) = Some (centre t a).
Proof.
  intros [_ B] H SN. unfold mean_at. rewrite (mean_spec t _ (pushed (snd (snd a)) t)); auto.
  - rewrite B. apply map_nth_error. apply all_pushed_nth; auto.
  - intros Z. unfold seen in SN. rewrite Z in SN. discriminate.
Qed.
Lemma settled_calc N a q : settled N a q -> exists p, calculate_all_matrices_S false (snd q) = Some p /\ forall i, settled N a (i, p).
Proof.
  intros [A B]. destruct (calc_S_false N _ _ A) as (p & E & SH & PS & _). exists p. split; auto. intros i. split; auto. cbn [snd]. rewrite PS. unfold S_used. rewrite B.
  destruct A as [_ C _ _]. rewrite C. destruct (map matrix_S _); auto.
Qed.
Lemma init_first_spec N h l : (0 < N)%nat -> Forall2 (settled N) h l -> exists l', init_first l = Some (map (centre 0) (filter (seen 0) h), l') /\ Forall2 (settled N) h l'.
Proof.
  intros HN. induction 1 as [|a [i p] h l SA F (l' & E & F')]; cbn [init_first]; [exists []; split; [reflexivity | constructor]|].
  destruct (settled_calc N a (i, p) SA) as (p1 & E1 & S1). cbn [snd] in E1. rewrite E1, E.
  pose proof (settled_number N a (i, p1) 0 (S1 i) HN) as EN. cbn [snd] in EN. rewrite EN, seen_case. cbn [filter].
  destruct (seen 0 a) eqn:SN; cbn [negb].
  - pose proof (settled_mean N a (i, p1) 0 (S1 i) HN) as EM. cbn [snd] in EM. rewrite EM by auto.
    cbn [map]. eexists. split; [reflexivity|]. constructor; auto.
  - eexists. split; [reflexivity|]. constructor; auto.
Qed.
Lemma init_pairs_spec N t ys h l : (t < N)%nat -> Forall2 (settled N) h l -> forall c, (forall j a, nth_error h j = Some a -> nth_error ys (c + j) = Some (centre 0 a)) ->
  init_pairs t ys c l = Some (map (fun a => (centre t a, centre 0 a)) (filter (seen t) h)).
Proof.
  intros Ht. induction 1 as [|a [i p] h l SA F IH]; intros c HY; cbn [init_pairs]; [reflexivity|].
  pose proof (settled_number N a (i, p) t SA Ht) as EN. cbn [snd] in EN. rewrite EN, seen_case. rewrite (IH (S c)) by (intros j b E; replace (S c + j)%nat with (c + S j)%nat by lia; apply HY; exact E).
  cbn [filter]. destruct (seen t a) eqn:SN; cbn [negb]; auto.
  pose proof (settled_mean N a (i, p) t SA Ht) as EM. cbn [snd] in EM. rewrite EM by auto.
  pose proof (HY 0%nat a eq_refl) as H0. rewrite Nat.add_0_r in H0. rewrite H0. reflexivity.
Qed.
(** pose t of r' is the alignment found for time t *)
Definition aligned (f : M3 -> svd) (h : list entry) (t : nat) (tr : list M4) : Prop :=
  exists T, arun f (centres_at t h) (centres_first t h) m4id = Some (1%nat, T) /\ nth_error tr t = Some T.
Lemma init_poses_spec f N h : Forall (fun a => seen 0 a = true) h ->
  forall k a r, (a + k <= N)%nat -> length (pr_traj r) = N -> Forall2 (settled N) h (pr_planes r) ->
  exists c r', init_poses f (map (centre 0) (filter (seen 0) h)) (seq a k) r = Some (c, r') /\ pr_planes r' = pr_planes r /\ pr_nposes r' = pr_nposes r /\ length (pr_traj r') = N /\
  (forall t, (t < a)%nat -> nth_error (pr_traj r') t = nth_error (pr_traj r) t) /\
  ((c = 1%nat /\ forall t, (a <= t < a + k)%nat -> aligned f h t (pr_traj r')) \/
   (c = 0%nat /\ exists t0, (a <= t0 < a + k)%nat /\ (exists T, arun f (centres_at t0 h) (centres_first t0 h) m4id = Some (0%nat, T)) /\
      (forall t, (a <= t < t0)%nat -> aligned f h t (pr_traj r')) /\ forall t, (t0 <= t)%nat -> nth_error (pr_traj r') t = nth_error (pr_traj r) t)).
Proof.
  intros AS. assert (FI : filter (seen 0) h = h). { clear - AS. induction AS as [|a h E F IH]; cbn; auto. rewrite E, IH. auto. }
  rewrite FI. induction k as [|k IH]; intros a r HA HL HS.
  - exists 1%nat, r. cbn [seq init_poses]. repeat split; auto. left. split; auto. intros; lia.
  - cbn [seq init_poses]. rewrite (init_pairs_spec N a (map (centre 0) h) h (pr_planes r) ltac:(lia) HS 0) by (intros j b E; apply map_nth_error; exact E).
    rewrite !map_map. cbn [fst snd]. change (map (fun x : entry => centre a x) (filter (seen a) h)) with (centres_at a h). change (map (fun x : entry => centre 0 x) (filter (seen a) h)) with (centres_first a h).
    destruct (arun_total f (centres_at a h) (centres_first a h) m4id) as (c & T & E & C); [unfold centres_at, centres_first; rewrite !map_length; reflexivity|]. rewrite E.
    destruct C as [-> | ->].
    + exists 0%nat, r. repeat split; auto. right. split; auto. exists a. split; [lia|]. split; [eauto|]. split; auto. intros; lia.
    + replace (a <? length (pr_traj r))%nat with true by (symmetry; apply Nat.ltb_lt; lia).
      destruct (IH (S a) (with_traj r (set_at a T (pr_traj r)))) as (c & r' & E' & PL & NP & LT & BE & D); [lia | cbn; rewrite set_at_length; auto | exact HS |]. rewrite E'.
      cbn [with_traj pr_traj pr_planes pr_nposes] in *. exists c, r'. split; [reflexivity|]. split; auto. split; auto. split; auto.
      assert (HT : nth_error (pr_traj r') a = Some T) by (rewrite BE by lia; apply set_at_same; lia).
      split; [intros t H; rewrite BE by lia; apply set_at_other; lia|].
      assert (AA : aligned f h a (pr_traj r')) by (exists T; auto).
      destruct D as [[-> D] | [-> (t0 & H0 & R0 & D1 & D2)]]; [left | right]; split; auto.
      * intros t H. destruct (Nat.eq_dec t a) as [-> | N0]; auto. apply D. lia.
      * exists t0. split; [lia|]. split; auto. split.
        -- intros t H. destruct (Nat.eq_dec t a) as [-> | N0]; auto. apply D1. lia.
        -- intros t H. rewrite D2 by auto. apply set_at_other. lia.
Qed.
(** the state when solve() starts *)
Lemma settled_start eigs N h l tr e l' : Forall2 (same_plane eigs) h l -> sizes N h -> fresh h -> estimate_all eigs tr l = Some (e, l') -> Forall2 (settled N) h l'.
Proof.
  intros F. revert e l'. induction F as [|a [i p] h l (E & L) F IH]; intros e l' SZ FR H; cbn [estimate_all] in H; [injection H as _ <-; constructor|].
  destruct (estimate_plane eigs tr p) as [[e1 p1]|] eqn:E1; [|discriminate]. destruct (estimate_all eigs tr l) as [[s l1]|] eqn:E2; [|discriminate]. injection H as _ <-.
  inversion SZ as [|? ? SZ1 SZ2]; subst. inversion FR as [|? ? FR1 FR2]; subst. constructor; [|eapply IH; eauto]. cbn [snd] in L. pose proof (like_used _ _ _ _ L) as LU. destruct (like_shape _ _ _ _ L) as [SH _].
  destruct (Nat.le_gt_cases (fst (snd a)) (length tr)) as [G|G]; [|rewrite (estimate_short eigs _ _ p tr SH G) in E1; discriminate].
  destruct (estimate_spec eigs _ _ p tr SH G) as (p' & E3 & S3 & PS & _). rewrite E3 in E1. injection E1 as _ <-. split; [exact S3|]. cbn [snd]. rewrite PS, LU, FR1. reflexivity.
Qed.
Lemma initialize_spec k h s r : (0 < fst h)%nat -> after k h r -> sizes (fst h) (snd h) -> fresh (snd h) -> Forall (fun a => seen 0 a = true) (snd h) ->
  exists c r', preg_solve (k_eigs k) (k_inv k) (k_svd k) INITIALIZE s r = Some (c, r') /\ pr_nposes r' = fst h /\ length (pr_traj r') = fst h /\
  ((c = 1%nat /\ forall t, (1 <= t < fst h)%nat -> aligned (k_svd k) (snd h) t (pr_traj r')) \/
   (c = 0%nat /\ exists t0, (1 <= t0 < fst h)%nat /\ (exists T, arun (k_svd k) (centres_at t0 (snd h)) (centres_first t0 (snd h)) m4id = Some (0%nat, T)) /\
      (forall t, (1 <= t < t0)%nat -> aligned (k_svd k) (snd h) t (pr_traj r')) /\ forall t, (t0 <= t)%nat -> nth_error (pr_traj r') t = nth_error (pr_traj r) t)).
Proof.
  intros HN AF SZ FR AS. destruct (after_length k h r AF HN) as [NP LT]. destruct (af_tracked _ _ _ AF) as [_ TK].
  destruct (estimated_all (k_eigs k) (pr_traj r) (snd h) (pr_planes r) TK) as (e & l & E); [eapply Forall_impl; [|exact SZ]; cbn; intros q H; rewrite H; lia|].
  pose proof (settled_start _ _ _ _ _ _ _ TK SZ FR E) as ST.
  unfold preg_solve, get_current_error. rewrite E. cbn [option_map fst snd]. cbv zeta. unfold solve_initialize. cbn [with_planes with_initial pr_planes].
  destruct (init_first_spec (fst h) (snd h) l HN ST) as (l' & E1 & ST'). rewrite E1. cbn [with_planes with_initial pr_nposes]. rewrite NP.
  destruct (init_poses_spec (k_svd k) (fst h) (snd h) AS (fst h - 1) 1 (with_planes (with_initial (with_planes r l) e) l')) as (c & r' & E2 & _ & N2 & L2 & _ & D); [lia | exact LT | exact ST' |].
  exists c, r'. split; [exact E2|]. split; [rewrite N2; exact NP|]. split; auto. cbn [with_planes with_initial pr_traj] in D. replace (1 + (fst h - 1))%nat with (fst h) in D by lia. exact D.
Qed.
(** a plane not seen at time 0 *)
Lemma init_pairs_none N t ys h l : (t < N)%nat -> Forall2 (settled N) h l -> forall c a, (exists h1, h = h1 ++ [a]) -> seen t a = true -> (length ys < c + length h)%nat -> init_pairs t ys c l = None.
Proof.
  intros Ht. induction 1 as [|b [i p] h l SA F IH]; intros c a (h1 & EH) SN LY; [destruct h1; discriminate|]. cbn [init_pairs].
  pose proof (settled_number N b (i, p) t SA Ht) as EN. cbn [snd] in EN. rewrite EN, seen_case. cbn [length] in LY.
  destruct h1 as [|b' h1]; cbn in EH; injection EH as <- EH.
  - subst h. inversion F; subst. cbn [init_pairs]. rewrite SN. cbn [negb].
    destruct (mean_at t p); auto. destruct (nth_error ys c) as [y|] eqn:EY; auto. assert (c < length ys)%nat by (apply nth_error_Some; congruence). cbn in LY. lia.
  - rewrite (IH (S c) a) by (eauto; lia). reflexivity.
Qed.
Lemma filter_short {A} (f : A -> bool) l : (length (filter f l) <= length l)%nat.
Proof. induction l as [|b l IH]; cbn; [lia|]. destruct (f b); cbn; lia. Qed.
Lemma filter_length_lt {A} (f : A -> bool) l a : In a l -> f a = false -> (length (filter f l) < length l)%nat.
Proof.
  induction l as [|b l IH]; intros I E; [destruct I|]. cbn. destruct I as [-> | I]; [rewrite E; pose proof (filter_short f l); lia|]. specialize (IH I E). destruct (f b); cbn; lia.
Qed.
Lemma initialize_unseen k h s r a b : (2 <= fst h)%nat -> after k h r -> sizes (fst h) (snd h) -> fresh (snd h) -> In a (snd h) -> seen 0 a = false -> (exists h1, snd h = h1 ++ [b]) -> seen 1 b = true ->
  preg_solve (k_eigs k) (k_inv k) (k_svd k) INITIALIZE s r = None.
Proof.
  intros HN AF SZ FR IA NA LB SB. destruct (after_length k h r AF ltac:(lia)) as [NP LT]. destruct (af_tracked _ _ _ AF) as [_ TK].
  destruct (estimated_all (k_eigs k) (pr_traj r) (snd h) (pr_planes r) TK) as (e & l & E); [eapply Forall_impl; [|exact SZ]; cbn; intros q H; rewrite H; lia|].
  pose proof (settled_start _ _ _ _ _ _ _ TK SZ FR E) as ST.
  unfold preg_solve, get_current_error. rewrite E. cbn [option_map fst snd]. cbv zeta. unfold solve_initialize. cbn [with_planes with_initial pr_planes].
  destruct (init_first_spec (fst h) (snd h) l ltac:(lia) ST) as (l' & E1 & ST'). rewrite E1. cbn [with_planes with_initial pr_nposes]. rewrite NP.
  destruct (fst h - 1)%nat as [|m] eqn:EM; [lia|]. cbn [seq init_poses with_planes with_initial pr_planes].
  rewrite (init_pairs_none (fst h) 1 _ (snd h) l' ltac:(lia) ST' 0 b); auto. rewrite map_length. cbn. eapply filter_length_lt; eauto.
Qed.
(** ** Where programs are defined *)
Lemma push_defined eigs i t x h l : Forall2 (same_plane eigs) h l -> (push_in i t x l = None <-> known i h = false).
Proof.
  unfold known. induction 1 as [|[j [n ops]] [j' p] h l (E & L) F IH]; cbn [push_in existsb fst]; [tauto|]. cbn in E, L. subst j'.
  destruct (Nat.eqb_spec j i) as [-> | N]; cbn [orb].
  - destruct (like_shape _ _ _ _ L) as [SH _]. destruct (push_ok eigs n _ p (Push x t) SH ltac:(eexists; eauto)) as [p' E']. cbn [plane_step] in E'. rewrite E'. cbn. split; discriminate.
  - rewrite <- IH. destruct (push_in i t x l); cbn; split; congruence.
Qed.
Lemma pushes_run eigs n ops : Forall is_push ops -> exists p, plane_run eigs ops (plane_new n) = Some p.
Proof.
  induction ops as [|o ops IH] using rev_ind; intros F; [eexists; reflexivity|]. apply Forall_app in F. destruct F as [F Fo]. destruct (IH F) as [p E]. apply Forall_inv in Fo. rewrite run_app, E.
  assert (NC : no_clear ops) by (intros I; rewrite Forall_forall in F; destruct (F _ I) as (x & t & H); discriminate). destruct (run_shape eigs n ops p NC E) as [SH _].
  destruct (push_ok eigs n _ p o SH Fo) as [p' E']. cbn [plane_run]. rewrite E'. eauto.
Qed.
Lemma after_ready k h r : after k h r -> (0 < fst h)%nat -> sizes (fst h) (snd h) -> ready (fst h) r.
Proof.
  intros A N SZ. destruct (after_length k h r A N) as [NP LT]. split; [|auto]. destruct (af_tracked _ _ _ A) as [_ F]. clear A NP LT N.
  induction F as [|a q hs l (E & L) F IH]; [constructor|]. inversion SZ as [|? ? S1 S2]; subst. constructor; [|apply IH; auto]. destruct (like_shape _ _ _ _ L) as [SH _]. rewrite S1 in SH. eauto.
Qed.
Lemma enabled_step k h r o : after k h r -> enabled h o -> exists r', reg_step k o r = Some r'.
Proof.
  intros A EN. destruct (af_tracked _ _ _ A) as [TA TB].
  assert (ER : (0 < fst h)%nat -> fits (fst h) (snd h) -> exists e r', get_current_error (k_eigs k) r = Some (e, r')).
  { intros N FT. destruct (after_length k h r A N) as [_ LT]. unfold get_current_error. destruct (estimated_all (k_eigs k) (pr_traj r) _ _ TB) as (e & l & E); [rewrite LT; auto|]. rewrite E. cbn. eauto. }
  assert (OPT : forall m s, optimizing m -> (0 < fst h)%nat -> sizes (fst h) (snd h) -> exists r', option_map snd (preg_solve (k_eigs k) (k_inv k) (k_svd k) m s r) = Some r').
  { intros m s M N SZ. destruct (solve_defined (k_eigs k) (k_inv k) (k_svd k) m s (fst h) r N (after_ready k h r A N SZ) M) as (r' & E & _). rewrite E. cbn. eauto. }
  destruct o as [a b|i|i n pops|i t x| | | | T|m s]; cbn [reg_step]; cbn [enabled] in EN; eauto.
  - destruct (pushes_run (k_eigs k) n pops EN) as [p E]. rewrite E. cbn. eauto.
  - unfold plane_push_back_point. destruct (push_in i t x (pr_planes r)) as [l|] eqn:E; [cbn; eauto|]. apply (push_defined _ _ _ _ _ _ TB) in E. congruence.
  - destruct (ER (proj1 EN) (proj2 EN)) as (e & r' & E). rewrite E. cbn. eauto.
  - unfold set_last_pose. rewrite TA. destruct (Nat.leb_spec (fst h) 1); eauto. destruct (after_length k h r A ltac:(lia)) as [_ LT]. rewrite LT, Nat.leb_refl. eauto.
  - destruct m; try tauto.
    + destruct EN as (N & SZ & FR & AS). destruct (initialize_spec k h s r N A SZ FR AS) as (c & r' & E & _). rewrite E. cbn. eauto.
    + destruct (ER (proj1 EN) (proj2 EN)) as (e & r' & E). unfold preg_solve. rewrite E. cbn. eauto.
    + apply OPT; try apply EN. left. auto.
    + destruct (ER (proj1 EN) (proj2 EN)) as (e & r' & E). unfold preg_solve. rewrite E. cbn. eauto.
    + apply OPT; try apply EN. right. left. auto.
    + apply OPT; try apply EN. right. right. auto.
Qed.
Lemma enabled_snoc ops o h : enabled_all h (ops ++ [o]) <-> enabled_all h ops /\ enabled (fold_left note ops h) o.
Proof. revert h. induction ops as [|a ops IH]; intros h; cbn [app enabled_all fold_left]; [tauto|]. rewrite IH. tauto. Qed.
Lemma enabled_ok h o : enabled h o -> reg_ok o.
Proof. destruct o; cbn; auto. intros F I. rewrite Forall_forall in F. destruct (F _ I) as (x & t & H). discriminate. Qed.
Lemma enabled_run k ops : enabled_all (0%nat, []) ops -> exists r, reg_run k ops preg_new = Some r /\ Forall reg_ok ops.
Proof.
  induction ops as [|o ops IH] using rev_ind; intros H; [eexists; split; [reflexivity | constructor]|]. apply enabled_snoc in H. destruct H as [H HO].
  destruct (IH H) as (r & E & F). rewrite reg_run_app, E. destruct (enabled_step k (history ops) r o (after_run k ops r F E) HO) as (r' & E'). cbn [reg_run]. rewrite E'. eexists. split; [reflexivity|].
  apply Forall_app. split; auto. constructor; auto. eapply enabled_ok; eauto.
Qed.
(** programs that only build *)
Lemma register_forall (P : entry -> Prop) i n ops h : P (i, (n, ops)) -> Forall P h -> Forall P (register i n ops h).
Proof. intros A B. unfold register. destruct (known i h); auto. apply Forall_app. auto. Qed.
Lemma building_history ops : Forall building ops -> sizes (poses_of ops) (planes_of ops) /\ Forall (fun q => Forall is_push (snd (snd q))) (planes_of ops).
Proof.
  unfold poses_of, planes_of. induction ops as [|o ops IH] using rev_ind; intros F; [split; constructor|]. apply Forall_app in F. destruct F as [F Fo]. apply Forall_inv in Fo. destruct (IH F) as [S P]. rewrite history_snoc.
  destruct o as [a b|i|i n pops|i t x| | | | T|m s]; cbn in Fo; try tauto; cbn [note fst snd].
  - split; constructor.
  - split; apply register_forall; cbn; auto.
  - unfold sizes, extend in *. rewrite !Forall_map. split.
    + eapply Forall_impl; [|exact S]. intros q H. cbn in H. destruct (i =? fst q)%nat; auto.
    + eapply Forall_impl; [|exact P]. intros q H. cbn in H. destruct (i =? fst q)%nat; auto. cbn. apply Forall_app. split; auto. constructor; auto. eexists; eauto.
Qed.
Lemma building_fresh ops : Forall building ops -> fresh (planes_of ops).
Proof. intros F. destruct (building_history ops F) as [_ P]. eapply Forall_impl; [|exact P]. intros q H. apply used_pushes. exact H. Qed.
(** a check that a building program only pushes to planes it added *)
Fixpoint wired (ids : list nat) (ops : list reg_op) : bool :=
  match ops with
  | [] => true
  | RSet _ _ :: r => wired [] r
  | RNew i :: r => wired (i :: ids) r
  | RPush i _ _ :: r => existsb (Nat.eqb i) ids && wired ids r
  | RCount :: r | RReset :: r | RLast _ :: r => wired ids r
  | _ => false
  end.
Lemma known_in i (h : list entry) : known i h = true <-> In i (map fst h).
Proof.
  unfold known. rewrite existsb_exists, in_map_iff. split; intros (q & A & B).
  - exists q. split; auto. apply Nat.eqb_eq. auto.
  - exists q. split; auto. apply Nat.eqb_eq. auto.
Qed.
Lemma wired_enabled ops : forall ids h, (forall i, In i ids -> In i (map fst (snd h))) -> wired ids ops = true -> enabled_all h ops.
Proof.
  induction ops as [|o ops IH]; intros ids h HI W; [exact I|].
  destruct o as [a b|i|i n pops|i t x| | | | T|m s]; cbn [wired] in W; try discriminate W; cbn [enabled_all enabled note]; (split; [try exact I|]).
  - eapply IH; [|exact W]. intros i [].
  - eapply IH; [|exact W]. intros j [<- | J]; cbn [fst snd]; unfold register; destruct (known i (snd h)) eqn:K.
    + apply known_in; auto.
    + rewrite map_app. apply in_or_app. right. left. auto.
    + auto.
    + rewrite map_app. apply in_or_app. left. auto.
  - apply andb_prop in W. destruct W as [W _]. apply existsb_exists in W. destruct W as (j & J & E). apply Nat.eqb_eq in E. subst j. apply known_in. auto.
  - apply andb_prop in W. destruct W as [_ W]. eapply IH; [|exact W]. intros j J. cbn [snd]. rewrite extend_ids. auto.
  - eapply IH; eauto.
  - eapply IH; eauto.
  - eapply IH; eauto.
Qed.
