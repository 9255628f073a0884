(** C59-C61, C67: one plane seen from several poses. *)
Require Import Reals List Arith Lia Lra Psatz Bool.
From Verif Require Import Lin LinFacts SO3 SE3 SpecGeom SO3Exp SO3Ln SE3Ops SE3Alg SE3Exp Sums Nodes Robust Graph Solve Session Factors SpecFactors FactorsDer Factors3D Factors3DLn SE3Tangent.
From Verif Require Import Registration SpecRegistration ArunProofs Planes SpecPlanes PlanesProofs PlanesEigen PlanesMore PlanesHess.
Import ListNotations.
Local Open Scope R_scope.

(** ** C59 *)
(** After any program without clear_points, the plane holds exactly the points
    pushed at each time, in order; pushes at later times were ignored. *)
Theorem C59_counts : forall eigs n ops p, no_clear ops -> plane_run eigs ops (plane_new n) = Some p ->
  (forall t, (t < n)%nat -> get_points t p = Some (pushed ops t) /\ get_number_points t p = Some (length (pushed ops t))) /\
  (forall t, (n <= t)%nat -> get_number_points t p = None /\ get_points t p = match n with O => None | S m => Some (pushed ops m) end) /\
  get_total_number_points p = count_pushed n ops.
Proof.
  intros eigs n ops p NC E. destruct (run_shape eigs n ops p NC E) as [[A B C D] N]. unfold get_points, get_number_points, get_total_number_points. rewrite A, B. split; [|split; [|exact N]].
  - intros t H. rewrite (all_pushed_nth n ops t H). replace (n <=? t)%nat with false; [auto|]. symmetry. apply Nat.leb_gt. auto.
  - intros t H. rewrite (proj2 (nth_error_None (all_pushed n ops) t)) by (rewrite C; auto). split; [reflexivity|].
    rewrite (proj2 (Nat.leb_le n t)) by auto. rewrite C. destruct n as [|m]; [reflexivity|]. replace (S m - 1)%nat with m by lia. apply all_pushed_nth. lia.
Qed.
Print Assumptions C59_counts.
(** The total is the sum of the counts of the times. *)
Theorem C59_total : forall n ops, count_pushed n ops = list_sum (map (fun t => length (pushed ops t)) (seq 0 n)).
Proof.
  intros n ops. induction ops as [|o ops IH] using rev_ind.
  - unfold count_pushed. cbn. assert (G : forall a, list_sum (map (fun t => length (pushed [] t)) (seq a n)) = 0%nat); [|symmetry; apply G]. induction n; intros a; cbn; auto.
  - rewrite count_app, IH. transitivity (list_sum (map (fun t => length (pushed ops t)) (seq 0 n)) + list_sum (map (fun t => length (pushed [o] t)) (seq 0 n)))%nat.
    + f_equal. clear IH. unfold count_pushed. destruct o as [x t | b | tr | tr t | t | |]; cbn [filter];
        try (assert (G : forall a, list_sum (map (fun _ : nat => 0%nat) (seq a n)) = 0%nat) by (induction n; intros a; cbn; auto); symmetry; apply G).
      assert (G : forall m a, list_sum (map (fun t' => length (pushed [Push x t] t')) (seq a m)) = if (a <=? t)%nat && (t <? a + m)%nat then 1%nat else 0%nat).
      { induction m as [|m IH]; intros a; cbn [seq map list_sum fold_right].
        - replace (a + 0)%nat with a by lia. destruct (Nat.leb_spec a t), (Nat.ltb_spec t a); auto; lia.
        - change (fold_right Nat.add 0%nat (map (fun t' => length (pushed [Push x t] t')) (seq (S a) m))) with (list_sum (map (fun t' => length (pushed [Push x t] t')) (seq (S a) m))).
          rewrite IH. cbn [pushed flat_map]. rewrite app_nil_r. destruct (Nat.eqb_spec t a) as [-> | Ne].
          + replace (S a <=? a)%nat with false by (symmetry; apply Nat.leb_gt; lia). replace (a <=? a)%nat with true by (symmetry; apply Nat.leb_le; lia).
            replace (a <? a + S m)%nat with true by (symmetry; apply Nat.ltb_lt; lia). reflexivity.
          + cbn [length Nat.add]. destruct (Nat.leb_spec (S a) t), (Nat.leb_spec a t), (Nat.ltb_spec t (S (a + m))), (Nat.ltb_spec t (a + S m)); cbn; auto; lia. }
      rewrite G. cbn [Nat.leb andb Nat.add]. destruct (t <? n)%nat; reflexivity.
    + generalize (seq 0 n) as l. induction l as [|t l IHl]; [reflexivity|]. cbn [map list_sum fold_right].
      change (fold_right Nat.add 0%nat) with list_sum. rewrite pushed_app, app_length. unfold list_sum in *. lia.
Qed.
Print Assumptions C59_total.
(** No call is out of range as long as there is no clear_points, estimates have
    a pose for each time and nothing else is called. *)
Definition plain (n : nat) (o : plane_op) : Prop :=
  match o with Push _ _ | CalcS _ | Reset => True | Estimate tr => (n <= length tr)%nat | _ => False end.
Theorem C59_defined : forall eigs n ops, Forall (plain n) ops -> exists p, plane_run eigs ops (plane_new n) = Some p.
Proof.
  intros eigs n ops. induction ops as [|o ops IH] using rev_ind; intros F; [eexists; reflexivity|].
  apply Forall_app in F. destruct F as [F Fo]. destruct (IH F) as [p E]. apply Forall_inv in Fo. rewrite run_app, E.
  assert (NC : no_clear ops) by (intros I; rewrite Forall_forall in F; exact (F _ I)). destruct (run_shape eigs n ops p NC E) as [SH _].
  cbn [plane_run]. destruct o as [x t | b | tr | tr t | t | |]; try (destruct Fo; fail); cbn [plane_step].
  - destruct (push_ok eigs n _ p (Push x t) SH ltac:(eexists; eauto)) as [p' E']. cbn [plane_step] in E'. rewrite E'. eauto.
  - destruct b; [destruct (calc_S_true n _ p SH) as (p' & E' & _) | destruct (calc_S_false n _ p SH) as (p' & E' & _)]; rewrite E'; eauto.
  - destruct (estimate_spec eigs n _ p tr SH Fo) as (p' & E' & _). rewrite E'. cbn. eauto.
  - eauto.
Qed.
Print Assumptions C59_defined.
Example C59_example : exists p, plane_run (fun _ => mkEigen4 0 v4zero) [Push (mkV3 1 2 3) 1; Push (mkV3 0 0 1) 5; Estimate [m4id; m4id]; Push (mkV3 4 5 6) 1; Reset] (plane_new 2) = Some p /\
  get_total_number_points p = 2%nat /\ get_points 1 p = Some [mkV3 1 2 3; mkV3 4 5 6] /\ get_number_points 0 p = Some 0%nat.
Proof.
  match goal with |- context [plane_run ?e ?o _] => destruct (C59_defined e 2 o) as [p E]; [repeat constructor|]; exists p; destruct (C59_counts e 2 o p) as (A & _ & C) end;
    [intros [I | [I | [I | [I | [I | []]]]]]; discriminate | exact E |].
  split; [exact E|]. split; [exact C|]. split; [exact (proj1 (A 1%nat ltac:(lia))) | exact (proj2 (A 0%nat ltac:(lia)))].
Qed.
(** The mean is that of the points present when the matrices were last computed;
    before that the call is out of range, and with no points it is not a number. *)
Theorem C59_mean : forall eigs n ops p, no_clear ops -> plane_run eigs ops (plane_new n) = Some p ->
  forall t, (t < n)%nat -> get_mean_point t p = match snapshot n (rev ops) with
    | None => None
    | Some s => match nth t s [] with [] => Some None | l => Some (Some (mean l)) end
    end.
Proof.
  intros eigs n ops p NC E t Ht. pose proof (run_S eigs n ops p NC E) as HS. destruct (snapshot n (rev ops)) as [s|] eqn:ES.
  - pose proof (snapshot_length _ _ _ ES) as L. destruct (nth_error s t) as [l|] eqn:EL; [|apply nth_error_None in EL; lia].
    rewrite (nth_error_nth s t [] EL). assert (EN : nth_error (pl_S p) t = Some (matrix_S l)) by (rewrite HS; apply map_nth_error; auto).
    destruct l as [|x l]; [|apply mean_spec; [auto | discriminate]].
    unfold get_mean_point. rewrite EN. cbn [option_map]. destruct (Req_EM_T _ _) as [Z | Z]; [reflexivity|]. exfalso. apply Z. rewrite S_count. reflexivity.
  - unfold get_mean_point. rewrite HS. destruct t; reflexivity.
Qed.
Print Assumptions C59_mean.
(** In particular calculate_all_matrices_S(true) makes it the mean of all points
    pushed so far. *)
Theorem C59_mean_fresh : forall eigs n ops p t, no_clear ops -> plane_run eigs (ops ++ [CalcS true]) (plane_new n) = Some p ->
  (t < n)%nat -> pushed ops t <> [] -> get_mean_point t p = Some (Some (mean (pushed ops t))).
Proof.
  intros eigs n ops p t NC E Ht NE. rewrite (C59_mean eigs n (ops ++ [CalcS true]) p) with (t := t); auto.
  - rewrite rev_app_distr. cbn [rev app snapshot]. rewrite rev_involutive. rewrite (nth_error_nth _ _ [] (all_pushed_nth n ops t Ht)). destruct (pushed ops t); [congruence | reflexivity].
  - intros I. apply in_app_or in I. destruct I as [I | [I | []]]; [auto | discriminate].
Qed.
Print Assumptions C59_mean_fresh.
(** Points pushed later do not move the mean, although they are counted. *)
Theorem C59_mean_stale_refuted : exists eigs ops p, no_clear ops /\ plane_run eigs ops (plane_new 1) = Some p /\
  get_number_points 0 p = Some 2%nat /\ get_mean_point 0 p = Some (Some (mkV3 0 0 0)) /\ mean (pushed ops 0) = mkV3 1 0 0.
Proof.
  set (ops := [Push (mkV3 0 0 0) 0; CalcS false; Push (mkV3 2 0 0) 0; CalcS false]). set (eigs := fun _ : M4 => mkEigen4 0 v4zero).
  assert (NC : no_clear ops) by (intros [H | [H | [H | [H | []]]]]; discriminate).
  destruct (C59_defined eigs 1 ops) as [p E]; [repeat constructor|]. exists eigs, ops, p. split; [exact NC|]. split; [exact E|].
  destruct (C59_counts eigs 1 ops p NC E) as (A & _). split; [exact (proj2 (A 0%nat ltac:(lia)))|]. split.
  - rewrite (C59_mean eigs 1 ops p NC E) by lia. cbn [ops rev app snapshot all_pushed map seq nth pushed flat_map Nat.eqb]. unfold mean. cbn [length v3sum fold_right INR]. do 2 f_equal. lin_unfold. apply v3_eq; field.
  - unfold mean, pushed. cbn [ops flat_map Nat.eqb app length v3sum fold_right INR]. lin_unfold. apply v3_eq; field.
Qed.
Print Assumptions C59_mean_stale_refuted.
(** clear_points empties the outer vector: the next push at a valid time, and
    the next evaluation, are out of range; the total is not reset. *)
Theorem C59_clear_unusable : forall eigs n ops p, no_clear ops -> plane_run eigs ops (plane_new n) = Some p ->
  get_total_number_points (clear_points p) = count_pushed n ops /\
  forall t, (t < n)%nat -> get_number_points t (clear_points p) = None /\
    (forall x, push_back_point x t (clear_points p) = None) /\ calculate_all_matrices_S true (clear_points p) = None.
Proof.
  intros eigs n ops p NC E. destruct (run_shape eigs n ops p NC E) as [[A B C D] N]. split; [exact N|]. intros t Ht. split; [destruct t; reflexivity|]. split.
  - intros x. unfold push_back_point. cbn [clear_points pl_len pl_points]. rewrite A, (proj2 (Nat.ltb_lt t n) Ht). destruct t; reflexivity.
  - unfold calculate_all_matrices_S. cbn [clear_points pl_len pl_points]. rewrite A. destruct n as [|m]; [lia|]. reflexivity.
Qed.
Print Assumptions C59_clear_unusable.
Example C59_clear_example : exists p, plane_run (fun _ => mkEigen4 0 v4zero) [Push (mkV3 1 2 3) 0] (plane_new 1) = Some p /\ get_total_number_points (clear_points p) = 1%nat.
Proof. eexists. split; reflexivity. Qed.

(** ** C60 *)
(** estimate_plane returns the minimum, over planes of unit length as
    4-vectors, of the sum of squares of the plane equation over the points in use,
    each moved by the pose of its time, and get_plane attains it. *)
Theorem C60_least : forall eigs n ops p tr, no_clear ops -> plane_run eigs ops (plane_new n) = Some p ->
  (n <= length tr)%nat -> Forall hom4 tr -> exact4 eigs (scatter tr (used n ops)) ->
  exists e v p', estimate_plane eigs tr p = Some (e, p') /\ get_error p' = e /\ get_plane p' = Some v /\ unit4 v /\
  cloud_error v tr (used n ops) = e /\ (forall u, unit4 u -> e <= cloud_error u tr (used n ops)).
Proof.
  intros eigs n ops p tr NC E L F X. destruct (estimate_run eigs n ops p tr NC E L F X) as (e & v & p' & A & B & C & D & G & _ & H). exists e, v, p'. auto 8.
Qed.
Print Assumptions C60_least.
(** The hypothesis on the eigen solver can always be met. *)
Theorem C60_eigen_exists : exists eigs, forall tr pts, exact4 eigs (scatter tr pts).
Proof. destruct exact4_all_exists as [f H]. exists f. intros tr pts. apply H, scatter_sym. Qed.
Print Assumptions C60_eigen_exists.
(** With fewer poses than times the trajectory is read out of range. *)
Theorem C60_short_trajectory : forall eigs n ops p tr, no_clear ops -> plane_run eigs ops (plane_new n) = Some p -> (length tr < n)%nat -> estimate_plane eigs tr p = None.
Proof. exact estimate_fails. Qed.
Print Assumptions C60_short_trajectory.
(** The points in use are all points pushed so far if nothing was evaluated
    yet, after reset, and after calculate_all_matrices_S(true). *)
Theorem C60_fresh : forall n ops, (Forall is_push ops -> used n ops = all_pushed n ops) /\
  (forall b, Forall is_push b -> used n (ops ++ [Reset] ++ b) = all_pushed n (ops ++ b)) /\ used n (ops ++ [CalcS true]) = all_pushed n ops.
Proof. intros n ops. split; [apply used_pushes|]. split; [apply used_reset | apply used_refresh]. Qed.
Print Assumptions C60_fresh.
(** Points pushed after an evaluation are not used by later ones. *)
Theorem C60_stale : forall eigs n ops tr b p p' tr', no_clear ops -> Forall is_push b ->
  plane_run eigs (ops ++ [Estimate tr]) (plane_new n) = Some p -> plane_run eigs b p = Some p' ->
  used n (ops ++ [Estimate tr] ++ b) = used n ops /\
  option_map fst (estimate_plane eigs tr' p') = option_map fst (estimate_plane eigs tr' p).
Proof.
  intros eigs n ops tr b p p' tr' NC F E E'. split; [apply used_stale; auto|].
  assert (NC1 : no_clear (ops ++ [Estimate tr])) by (intros I; apply in_app_or in I; destruct I as [I | [I | []]]; [auto | discriminate]).
  destruct (run_shape eigs n _ p NC1 E) as [SH _]. destruct (pushes_keep eigs n b _ p SH F) as (p2 & E2 & S2 & pts' & SH2). rewrite E' in E2. injection E2 as <-.
  destruct (Nat.lt_ge_cases (length tr') n) as [Ht | Ht]; [rewrite (estimate_short eigs n _ p tr' SH Ht), (estimate_short eigs n _ p' tr' SH2 Ht); reflexivity|].
  destruct (estimate_spec eigs n _ p tr' SH Ht) as (q & -> & _). destruct (estimate_spec eigs n _ p' tr' SH2 Ht) as (q' & -> & _). cbn [option_map fst].
  assert (U : S_used p' = S_used p); [|unfold acc_of; rewrite U; reflexivity].
  pose proof (run_S eigs n _ p NC1 E) as HS. rewrite rev_app_distr in HS. cbn [rev app snapshot] in HS. rewrite rev_involutive in HS.
  assert (exists s, pl_S p = map matrix_S s /\ length s = n) as (s & Hs & Ls).
  { destruct (snapshot n (rev ops)) as [s|] eqn:ES; [exists s; split; auto; apply (snapshot_length _ _ _ ES) | exists (all_pushed n ops); split; auto; apply all_pushed_length]. }
  rewrite (S_used_snap p n s Hs Ls), (S_used_snap p' n s); auto; try congruence.
  - rewrite (sh_pts _ _ _ SH2). apply SH2.
  - rewrite (sh_pts _ _ _ SH). apply SH.
Qed.
Print Assumptions C60_stale.
(** The value never exceeds the sum of squared distances to any plane. *)
Theorem C60_below_distances : forall eigs n ops p tr e p', no_clear ops -> plane_run eigs ops (plane_new n) = Some p ->
  Forall hom4 tr -> exact4 eigs (scatter tr (used n ops)) -> estimate_plane eigs tr p = Some (e, p') ->
  0 <= e /\ forall nrm d, v3sqn nrm = 1 -> e <= cloud_error (mkV4 nrm d) tr (used n ops).
Proof.
  intros eigs n ops p tr e p' NC E F X H. destruct (estimated eigs n ops p tr e p' NC E F H) as (L & _).
  destruct (estimate_run eigs n ops p tr NC E L F X) as (e2 & v & p2 & A & _ & _ & _ & V & LE). rewrite A in H. injection H as -> ->. split.
  - rewrite <- V. apply cloud_nonneg.
  - intros nrm d N. apply error_below_distances; auto.
Qed.
Print Assumptions C60_below_distances.
(** It is zero exactly when the points in use lie in one plane. *)
Theorem C60_coplanar : forall eigs n ops p tr e p', no_clear ops -> plane_run eigs ops (plane_new n) = Some p ->
  Forall hom4 tr -> exact4 eigs (scatter tr (used n ops)) -> estimate_plane eigs tr p = Some (e, p') -> some_point tr (used n ops) ->
  (e = 0 <-> exists nrm d, v3sqn nrm = 1 /\ in_plane (mkV4 nrm d) tr (used n ops)).
Proof.
  intros eigs n ops p tr e p' NC E F X H SP. destruct (estimated eigs n ops p tr e p' NC E F H) as (L & _).
  destruct (estimate_run eigs n ops p tr NC E L F X) as (e2 & v & p2 & A & _ & _ & _ & V & LE). rewrite A in H. injection H as -> ->. apply coplanar_iff; auto.
Qed.
Print Assumptions C60_coplanar.
Definition corner : list plane_op := [Push (mkV3 0 0 0) 0; Push (mkV3 1 0 0) 0; Push (mkV3 0 1 0) 0].
Lemma corner_push : Forall is_push corner.
Proof. repeat constructor; unfold is_push; eauto. Qed.
Lemma no_clear_push ops : Forall is_push ops -> no_clear ops.
Proof. intros F I. rewrite Forall_forall in F. destruct (F _ I) as (x & t & H). discriminate. Qed.
Lemma hom_id : Forall hom4 [m4id]. Proof. repeat constructor. Qed.
Ltac conjs := repeat match goal with |- _ /\ _ => split; [solve [auto using hom_id]|] end.
Example C60_example : exists eigs p e p', no_clear corner /\ plane_run eigs corner (plane_new 1) = Some p /\ Forall hom4 [m4id] /\
  exact4 eigs (scatter [m4id] (used 1 corner)) /\ estimate_plane eigs [m4id] p = Some (e, p') /\ some_point [m4id] (used 1 corner) /\ e = 0.
Proof.
  destruct exact4_all_exists as [eigs H]. exists eigs. destruct (C59_defined eigs 1 corner) as [p E]; [repeat constructor|]. exists p.
  pose proof (no_clear_push _ corner_push) as NC. assert (X : exact4 eigs (scatter [m4id] (used 1 corner))) by apply H, scatter_sym.
  destruct (C60_least eigs 1 corner p [m4id] NC E (le_n 1) hom_id X) as (e & v & p' & A & _). exists e, p'.
  assert (SP : some_point [m4id] (used 1 corner)) by (exists m4id, [mkV3 0 0 0; mkV3 1 0 0; mkV3 0 1 0], (mkV3 0 0 0); split; [left; reflexivity | left; reflexivity]).
  conjs. apply (C60_coplanar eigs 1 corner p [m4id] e p' NC E hom_id X A SP). exists (mkV3 0 0 1), 0. split; [lin|].
  intros T l x I J. destruct I as [I | []]. injection I as <- <-. destruct J as [<- | [<- | [<- | []]]]; unfold plane_at, move; lin.
Qed.
(** Full statement, false in the code: every evaluation uses all points pushed so far. *)
Theorem C60_all_points_refuted : exists eigs ops p tr e p', (forall Q, m4tr Q = Q -> exact4 eigs Q) /\ no_clear ops /\ Forall hom4 tr /\
  plane_run eigs ops (plane_new 1) = Some p /\ estimate_plane eigs tr p = Some (e, p') /\ e = 0 /\
  forall nrm d, v3sqn nrm = 1 -> ~ in_plane (mkV4 nrm d) tr (all_pushed 1 ops).
Proof.
  destruct exact4_all_exists as [eigs H]. set (ops := corner ++ [Estimate [m4id]] ++ [Push (mkV3 0 0 1) 0]).
  assert (NC : no_clear ops) by (intros [I | [I | [I | [I | [I | []]]]]]; discriminate).
  destruct (C59_defined eigs 1 ops) as [p E]; [repeat constructor|].
  assert (U : used 1 ops = used 1 corner) by (apply used_stale; repeat constructor; unfold is_push; eauto).
  assert (X : exact4 eigs (scatter [m4id] (used 1 ops))) by apply H, scatter_sym.
  destruct (C60_least eigs 1 ops p [m4id] NC E (le_n 1) hom_id X) as (e & v & p' & A & _).
  exists eigs, ops, p, [m4id], e, p'. conjs. split.
  - apply (C60_coplanar eigs 1 ops p [m4id] e p' NC E hom_id X A).
    + rewrite U. exists m4id, [mkV3 0 0 0; mkV3 1 0 0; mkV3 0 1 0], (mkV3 0 0 0). split; left; reflexivity.
    + exists (mkV3 0 0 1), 0. split; [lin|]. rewrite U. intros T l x I J. destruct I as [I | []]. injection I as <- <-. destruct J as [<- | [<- | [<- | []]]]; unfold plane_at, move; lin.
  - intros [a b c] d N P.
    assert (Q : forall x, In x [mkV3 0 0 0; mkV3 1 0 0; mkV3 0 1 0; mkV3 0 0 1] -> plane_at (mkV4 (mkV3 a b c) d) (move m4id x) = 0) by (intros x; apply (P m4id); left; reflexivity).
    pose proof (Q _ (or_introl eq_refl)) as Q1. pose proof (Q _ (or_intror (or_introl eq_refl))) as Q2. pose proof (Q _ (or_intror (or_intror (or_introl eq_refl)))) as Q3.
    pose proof (Q _ (or_intror (or_intror (or_intror (or_introl eq_refl))))) as Q4. unfold plane_at, move in *. lin_unfold_in Q1. lin_unfold_in Q2. lin_unfold_in Q3. lin_unfold_in Q4. lin_unfold_in N. 
    assert (a = 0) by lra. assert (b = 0) by lra. assert (c = 0) by lra. subst. lra.
Qed.
Print Assumptions C60_all_points_refuted.
(** The value depends on where the origin of the world is: moving all poses by
    one rigid motion changes it (planes are normalised as 4-vectors). *)
Definition tetra : list plane_op := corner ++ [Push (mkV3 0 0 1) 0].
Definition up3 : M4 := mkM4 m3id (mkV3 0 0 3) v3zero 1.
Theorem C60_frame_refuted : exists eigs ops p e1 p1 e2 p2 T, (forall Q, m4tr Q = Q -> exact4 eigs Q) /\ Forall is_push ops /\ rigid T /\
  plane_run eigs ops (plane_new 1) = Some p /\ estimate_plane eigs [m4id] p = Some (e1, p1) /\ estimate_plane eigs [m4mul T m4id] p = Some (e2, p2) /\ e2 < e1.
Proof.
  destruct exact4_all_exists as [eigs H]. assert (F : Forall is_push tetra) by (repeat constructor; unfold is_push; eauto). pose proof (no_clear_push _ F) as NC.
  destruct (C59_defined eigs 1 tetra) as [p E]; [repeat constructor|].
  assert (EU : m4mul up3 m4id = up3) by (unfold up3; lin).
  assert (HU : Forall hom4 [up3]) by (repeat constructor).
  destruct (C60_least eigs 1 tetra p [m4id] NC E (le_n 1) hom_id) as (e1 & v1 & p1 & A1 & _ & _ & U1 & V1 & _); [apply H, scatter_sym|].
  destruct (C60_least eigs 1 tetra p [up3] NC E (le_n 1) HU) as (e2 & v2 & p2 & A2 & _ & _ & _ & _ & M2); [apply H, scatter_sym|].
  exists eigs, tetra, p, e1, p1, e2, p2, up3. rewrite EU. assert (RU : rigid up3) by (split; [split; unfold orthogonal, up3; lin | split; reflexivity]). conjs.
  assert (C1 : 1 / 7 <= e1).
  { rewrite <- V1. destruct v1 as [[a b c] d]. unfold unit4 in U1. lin_unfold_in U1. cbv [cloud_error used tetra corner snapshot rev app all_pushed map seq pushed flat_map Nat.eqb combine]. rewrite lsum_cons, lsum_nil. cbn [fst snd]. rewrite !lsum_cons, lsum_nil. unfold plane_at, move. lin_unfold. 
    assert (S1 : a * a <= 2 * ((a + d) * (a + d)) + 2 * (d * d)) by (pose proof (Rle_0_sqr (a + 2 * d)); unfold Rsqr in *; lra).
    assert (S2 : b * b <= 2 * ((b + d) * (b + d)) + 2 * (d * d)) by (pose proof (Rle_0_sqr (b + 2 * d)); unfold Rsqr in *; lra).
    assert (S3 : c * c <= 2 * ((c + d) * (c + d)) + 2 * (d * d)) by (pose proof (Rle_0_sqr (c + 2 * d)); unfold Rsqr in *; lra).
    pose proof (Rle_0_sqr (a + d)). pose proof (Rle_0_sqr (b + d)). pose proof (Rle_0_sqr (c + d)). unfold Rsqr in *. lra. }
  assert (C2 : e2 <= 1 / 10).
  { pose proof (least_any [up3] (used 1 tetra) e2 (mkV4 (mkV3 0 0 1) (-3))) as L. 
    assert (LL : least (fun u => cloud_error u [up3] (used 1 tetra)) e2).
    { destruct (estimate_run eigs 1 tetra p [up3] NC E (le_n 1) HU (H _ (scatter_sym _ _))) as (e2' & v' & p' & A' & _ & _ & _ & _ & L'). rewrite A2 in A'. injection A' as -> _. exact L'. }
    specialize (L LL). revert L. cbv [cloud_error used tetra corner snapshot rev app all_pushed map seq pushed flat_map Nat.eqb combine]. rewrite lsum_cons, lsum_nil. cbn [fst snd]. rewrite !lsum_cons, lsum_nil. unfold plane_at, move, up3. lin_unfold. lra. }
  lra.
Qed.
Print Assumptions C60_frame_refuted.

(** ** C61 *)
(** After an evaluation, calculate_gradient(t) is the derivative, for every
    direction xi of the update of pose t, of the error of the estimated plane ... *)
Theorem C61_fixed_plane : forall eigs n ops p tr e p1 t T v g p2, no_clear ops -> plane_run eigs ops (plane_new n) = Some p -> Forall hom4 tr ->
  estimate_plane eigs tr p = Some (e, p1) -> (t < n)%nat -> nth_error tr t = Some T -> get_plane p1 = Some v -> calculate_gradient t p1 = Some (g, p2) ->
  forall xi, derivable_pt_lim (fun s => cloud_error v (replace_pose t (se3_update_lhs T (v6scal s xi)) tr) (used n ops)) 0 (v6dot g xi).
Proof. exact gradient_fixed. Qed.
Print Assumptions C61_fixed_plane.
(** ... and of the value returned by estimate_plane itself, where the plane is
    estimated again, if the smallest eigenvalue is simple. *)
Theorem C61_estimated_plane : forall eigs n ops p tr e p1 t T v g p2, no_clear ops -> plane_run eigs ops (plane_new n) = Some p -> Forall hom4 tr ->
  (forall Q, m4tr Q = Q -> exact4 eigs Q) ->
  estimate_plane eigs tr p = Some (e, p1) -> (t < n)%nat -> nth_error tr t = Some T -> get_plane p1 = Some v -> separated (fun u => cloud_error u tr (used n ops)) v e ->
  calculate_gradient t p1 = Some (g, p2) -> forall xi,
  derivable_pt_lim (fun s => match estimate_plane eigs (replace_pose t (se3_update_lhs T (v6scal s xi)) tr) p1 with Some (e, _) => e | None => 0 end) 0 (v6dot g xi).
Proof. exact gradient_eigen. Qed.
Print Assumptions C61_estimated_plane.
(** It is defined for every time after an evaluation, and not before. *)
Theorem C61_defined : forall eigs n ops p tr e p1 t, no_clear ops -> plane_run eigs ops (plane_new n) = Some p -> Forall hom4 tr ->
  estimate_plane eigs tr p = Some (e, p1) -> ((t < n)%nat <-> exists g p2, calculate_gradient t p1 = Some (g, p2)) /\ calculate_gradient t (plane_new n) = None.
Proof.
  intros eigs n ops p tr e p1 t NC R F E. destruct (estimated eigs n ops p tr e p1 NC R F E) as (L & _ & EV & Q & _). split; [split|].
  - intros Ht. destruct (nth_error tr t) as [T|] eqn:ET; [|apply nth_error_None in ET; lia]. destruct (gradient_run eigs n ops p tr e p1 t T _ NC R F E Ht ET EV) as (l & p2 & _ & G). eauto.
  - intros (g & p2 & G). unfold calculate_gradient in G. destruct (nth_error (pl_Q p1) t) eqn:EN; [|discriminate].
    assert (t < length (pl_Q p1))%nat by (apply nth_error_Some; congruence). rewrite Q in H. unfold Q_of in H. rewrite map_length, combine_length, map_length, used_length in H. lia.
  - unfold calculate_gradient. destruct t; reflexivity.
Qed.
Print Assumptions C61_defined.
(** calculate_hessian after calculate_gradient is the exact second derivative of
    the error of the estimated plane for translations of the pose. *)
Theorem C61_hessian_translation : forall eigs n ops p tr e p1 t T v g p2 h, no_clear ops -> plane_run eigs ops (plane_new n) = Some p -> Forall hom4 tr ->
  estimate_plane eigs tr p = Some (e, p1) -> (t < n)%nat -> nth_error tr t = Some T -> get_plane p1 = Some v -> calculate_gradient t p1 = Some (g, p2) ->
  calculate_hessian t p2 = Some h -> forall d, second_derivative (fun s => cloud_error v (replace_pose t (se3_update_lhs T (v6scal s (mkV6 v3zero d))) tr) (used n ops))
   (sumn 3 (fun i => sumn 3 (fun j => v6_nth (mkV6 v3zero d) (3 + i) * v6_nth (mkV6 v3zero d) (3 + j) * upper_view h (3 + i) (3 + j)))).
Proof. exact hessian_translation_run. Qed.
Print Assumptions C61_hessian_translation.
(** On each axis the diagonal entry exceeds the second derivative along the
    one-parameter group by 2 v' G G Q v, Q the moved scatter of the points at t. *)
Theorem C61_hessian_axis : forall eigs n ops p tr e p1 t T v g p2 h l, no_clear ops -> plane_run eigs ops (plane_new n) = Some p -> Forall hom4 tr ->
  estimate_plane eigs tr p = Some (e, p1) -> (t < n)%nat -> nth_error tr t = Some T -> get_plane p1 = Some v -> calculate_gradient t p1 = Some (g, p2) ->
  calculate_hessian t p2 = Some h -> nth_error (used n ops) t = Some l -> forall i E, (i < 6)%nat -> is_exp_curve4 (twist (axis6 i)) E -> (forall s, hom4 (E s)) ->
  second_derivative (fun s => cloud_error v (replace_pose t (m4mul (E s) T) tr) (used n ops))
   (h i i - 2 * v4dot v (m4app (m4mul (m4mul (twist (axis6 i)) (twist (axis6 i))) (conj4 T (matrix_S l))) v)).
Proof.
  intros eigs n ops p tr e p1 t T v g p2 h l NC R F E Ht ET EV EG EH EL i Ex Hi HE HH.
  destruct (hessian_run eigs n ops p tr e p1 t T v g p2 NC R F E Ht ET EV EG) as (l' & EL' & EH'). rewrite EL in EL'. injection EL' as <-. rewrite EH' in EH. injection EH as <-.
  rewrite (proj2 (Nat.leb_le i i)), (proj2 (Nat.ltb_lt i 6)) by auto. cbn [andb]. rewrite hessian_axis by (auto; apply m4tr_conj, matrix_S_sym). rewrite gen_axis by auto.
  destruct (second_along Ex _ tr (used n ops) t T l v HE HH ET EL F) as (f & A & B). exists f. split; auto.
  eapply dl_eq; [exact B|]. unfold quad4 at 3. ring.
Qed.
Print Assumptions C61_hessian_axis.
(** six points, plane z = 0, smallest eigenvalue 2, the others 6, 8, 8 *)
Definition octa : list V3 := [mkV3 2 0 0; mkV3 (-2) 0 0; mkV3 0 2 0; mkV3 0 (-2) 0; mkV3 0 0 1; mkV3 0 0 (-1)].
Definition octa_ops : list plane_op := map (fun x => Push x 0) octa.
Definition octa_eigs : M4 -> eigen4 := fun _ => mkEigen4 2 (mkV4 (mkV3 0 0 1) 0).
Lemma octa_scatter : scatter [m4id] (used 1 octa_ops) = mkM4 (mkM3 8 0 0 0 8 0 0 0 2) v3zero v3zero 6.
Proof.
  cbv [scatter used octa_ops octa snapshot rev app all_pushed map seq pushed flat_map Nat.eqb combine fold_right fst snd]. unfold outer4, hom, move. lin_unfold. lin_split; ring.
Qed.
Lemma octa_exact : exact4 octa_eigs (scatter [m4id] (used 1 octa_ops)).
Proof.
  rewrite octa_scatter. unfold exact4, octa_eigs. split; [unfold unit4; cbn [e4_vec]; lin|]. split; cbn [e4_vec e4_val]; [lin|]. intros [[a b c] d]. lin_unfold. nra.
Qed.
Lemma octa_separated : separated (fun u => cloud_error u [m4id] (used 1 octa_ops)) (mkV4 (mkV3 0 0 1) 0) 2.
Proof.
  exists 4. split; [lra|]. intros [[a b c] d] H. rewrite <- quad4_scatter, octa_scatter. lin_unfold_in H. unfold quad4. lin_unfold. nra.
Qed.
Example C61_example : exists eigs p e p1 g p2, no_clear octa_ops /\ plane_run eigs octa_ops (plane_new 1) = Some p /\ Forall hom4 [m4id] /\ (forall Q, m4tr Q = Q -> exact4 eigs Q) /\
  estimate_plane eigs [m4id] p = Some (e, p1) /\ e = 2 /\ calculate_gradient 0 p1 = Some (g, p2) /\
  (exists v, get_plane p1 = Some v /\ separated (fun u => cloud_error u [m4id] (used 1 octa_ops)) v e).
Proof.
  destruct exact4_all_exists as [eigs H]. assert (FP : Forall is_push octa_ops) by (repeat constructor; unfold is_push; eauto). pose proof (no_clear_push _ FP) as NC.
  destruct (C59_defined eigs 1 octa_ops) as [p E]; [repeat constructor|].
  assert (X : exact4 eigs (scatter [m4id] (used 1 octa_ops))) by apply H, scatter_sym.
  destruct (estimate_run eigs 1 octa_ops p [m4id] NC E (le_n 1) hom_id X) as (e & v & p1 & A & _ & B & U & V & L).
  destruct (proj1 (proj1 (C61_defined eigs 1 octa_ops p [m4id] e p1 0 NC E hom_id A)) ltac:(lia)) as (g & p2 & G).
  assert (E2 : e = 2).
  { apply (least_unique (fun u => cloud_error u [m4id] (used 1 octa_ops))); auto. destruct (eigen_least _ _ octa_exact) as [[(w & W1 & W2) M] _]. split; [exists w; split; auto; rewrite <- quad4_scatter; auto|].
    intros u Hu. rewrite <- quad4_scatter. auto. }
  exists eigs, p, e, p1, g, p2. conjs. exists v. split; auto.
  (* the eigenvector is the z axis up to sign *)
  rewrite E2 in V |- *. rewrite <- quad4_scatter, octa_scatter in V. destruct v as [[a b c] d]. unfold unit4 in U. lin_unfold_in U. unfold quad4 in V. lin_unfold_in V.
  assert (a = 0) by nra. assert (b = 0) by nra. assert (d = 0) by nra. subst. assert (C : c * c = 1) by lra.
  exists 4. split; [lra|]. intros [[x y z] w] HO. rewrite <- quad4_scatter, octa_scatter. lin_unfold_in HO. assert (Z : c * z = 0) by lra. assert (z = 0) by nra. subst. unfold quad4. lin_unfold. nra.
Qed.
Lemma rot_x_curve : is_exp_curve4 (twist (axis6 0)) (fun s => se3_of_Rt (rot_x s) v3zero).
Proof.
  split; [unfold se3_of_Rt, rot_x, m4id, m3id; rewrite cos_0, sin_0, Ropp_0; reflexivity|]. intros s. unfold m4_derivative, m3_derivative, v3_derivative, twist, axis6, v6_of, se3_of_Rt, rot_x. cbn [Nat.eqb]. lin_unfold.
  assert (DC : derivable_pt_lim cos s (- sin s)) by apply derivable_pt_lim_cos. assert (DS : derivable_pt_lim sin s (cos s)) by apply derivable_pt_lim_sin.
  assert (DN : derivable_pt_lim (fun x => - sin x) s (- cos s)) by (apply (dl_opp sin); auto).
  repeat match goal with |- _ /\ _ => split end; (eapply dl_eq; [first [exact DC | exact DS | exact DN | apply dl_const] | ring]).
Qed.
(** Full statement, false in the code: the diagonal entries are the second
    derivatives along the axes.  Rotation about x: entry 8, derivative 12. *)
Theorem C61_hessian_refuted : exists eigs ops p tr e p1 g p2 h v E d2, no_clear ops /\ plane_run eigs ops (plane_new 1) = Some p /\ Forall hom4 tr /\ exact4 eigs (scatter tr (used 1 ops)) /\
  estimate_plane eigs tr p = Some (e, p1) /\ get_plane p1 = Some v /\ calculate_gradient 0 p1 = Some (g, p2) /\ calculate_hessian 0 p2 = Some h /\
  is_exp_curve4 (twist (axis6 0)) E /\ second_derivative (fun s => cloud_error v (replace_pose 0 (m4mul (E s) m4id) tr) (used 1 ops)) d2 /\ nth_error tr 0 = Some m4id /\ h 0%nat 0%nat <> d2.
Proof.
  assert (FP : Forall is_push octa_ops) by (repeat constructor; unfold is_push; eauto). pose proof (no_clear_push _ FP) as NC.
  destruct (C59_defined octa_eigs 1 octa_ops) as [p E]; [repeat constructor|].
  destruct (estimate_run octa_eigs 1 octa_ops p [m4id] NC E (le_n 1) hom_id octa_exact) as (e & v & p1 & A & _ & B & U & V & L).
  destruct (proj1 (proj1 (C61_defined octa_eigs 1 octa_ops p [m4id] e p1 0 NC E hom_id A)) ltac:(lia)) as (g & p2 & G).
  destruct (hessian_run octa_eigs 1 octa_ops p [m4id] e p1 0 m4id v g p2 NC E hom_id A ltac:(lia) eq_refl B G) as (l & EL & EH).
  assert (Ev : v = mkV4 (mkV3 0 0 1) 0).
  { destruct (estimated octa_eigs 1 octa_ops p [m4id] e p1 NC E hom_id A) as (_ & _ & EV & _). rewrite B in EV. injection EV as ->. reflexivity. }
  assert (El : l = octa) by (cbn in EL; injection EL as <-; reflexivity). subst v l.
  pose proof (C61_hessian_axis octa_eigs 1 octa_ops p [m4id] e p1 0 m4id _ g p2 _ octa NC E hom_id A ltac:(lia) eq_refl B G EH EL 0%nat _ ltac:(lia) rot_x_curve ltac:(intros s; split; reflexivity)) as SD.
  exists octa_eigs, octa_ops, p, [m4id], e, p1, g, p2. eexists. exists (mkV4 (mkV3 0 0 1) 0), (fun s => se3_of_Rt (rot_x s) v3zero). eexists.
  split; [exact NC|]. split; [exact E|]. split; [exact hom_id|]. split; [exact octa_exact|]. split; [exact A|]. split; [exact B|]. split; [exact G|]. split; [exact EH|]. split; [exact rot_x_curve|].
  split; [exact SD|]. split; [reflexivity|]. 
  set (hh := if (0 <=? 0)%nat && (0 <? 6)%nat then _ else _). clearbody hh. intros C.
  assert (Z : v4dot (mkV4 (mkV3 0 0 1) 0) (m4app (m4mul (m4mul (twist (axis6 0)) (twist (axis6 0))) (conj4 m4id (matrix_S octa))) (mkV4 (mkV3 0 0 1) 0)) = -2).
  { replace (conj4 m4id (matrix_S octa)) with (mkM4 (mkM3 8 0 0 0 8 0 0 0 2) v3zero v3zero 6).
    - unfold twist, axis6, v6_of. cbn [Nat.eqb]. lin_unfold. ring.
    - rewrite conj4_S by (split; reflexivity). cbv [msum octa map fold_right]. unfold outer4, hom, move. lin_unfold. lin_split; ring. }
  rewrite Z in C. lra.
Qed.
Print Assumptions C61_hessian_refuted.

(** ** C67 *)
(** After an evaluation, calls of estimate_plane_incrementally at distinct times,
    each after a change of the trajectory at that time only, leave the plane in a
    state from which get_error_incremental and estimate_plane_incrementally at
    another time return the minimum for the trajectory as it is then. *)
Theorem C67_incremental : forall eigs n ops p tr e p1 l tr2 p2 tr3 t, no_clear ops -> plane_run eigs ops (plane_new n) = Some p -> Forall hom4 tr -> estimate_plane eigs tr p = Some (e, p1) ->
  increments tr l tr2 -> NoDup (map snd l) -> Forall (fun q => (snd q < n)%nat) l -> Forall hom4 tr2 -> plane_run eigs (map (fun q => Incremental (fst q) (snd q)) l) p1 = Some p2 ->
  ~ In t (map snd l) -> (t < n)%nat -> same_but t tr2 tr3 -> Forall hom4 tr3 -> exact4 eigs (scatter tr3 (used n ops)) ->
  exists e', get_error_incremental eigs tr3 t p2 = Some e' /\ least (fun u => cloud_error u tr3 (used n ops)) e' /\
   exists p3 v, estimate_plane_incrementally eigs tr3 t p2 = Some (e', p3) /\ get_plane p3 = Some v /\ unit4 v /\ cloud_error v tr3 (used n ops) = e'.
Proof. exact incremental_error. Qed.
Print Assumptions C67_incremental.
(** Those calls never fail. *)
Theorem C67_defined : forall eigs n ops p tr e p1 l tr2, no_clear ops -> plane_run eigs ops (plane_new n) = Some p -> Forall hom4 tr -> estimate_plane eigs tr p = Some (e, p1) ->
  increments tr l tr2 -> NoDup (map snd l) -> Forall (fun q => (snd q < n)%nat) l -> Forall hom4 tr2 ->
  exists p2, plane_run eigs (map (fun q => Incremental (fst q) (snd q)) l) p1 = Some p2.
Proof. intros eigs n ops p tr e p1 l tr2 A B C D E F G H. destruct (incremental_run eigs n ops p tr e p1 l tr2 A B C D E F G H) as (p2 & R & _). exists p2. exact R. Qed.
Print Assumptions C67_defined.
Example C67_example : same_but 1 [m4id; m4id] [m4id; up3] /\ increments [m4id; m4id] [([m4id; up3], 1%nat)] [m4id; up3] /\ same_but 0 [m4id; up3] [up3; up3].
Proof.
  assert (A : same_but 1 [m4id; m4id] [m4id; up3]) by (split; [reflexivity | intros [|[|i]] H; auto; congruence]). split; auto. split; [econstructor; [exact A | constructor]|].
  split; [reflexivity | intros [|[|i]] H; auto; congruence].
Qed.
(** get_error keeps the value of the last full evaluation. *)
Theorem C67_get_error_kept : forall eigs tr t p e p', estimate_plane_incrementally eigs tr t p = Some (e, p') -> get_error p' = get_error p.
Proof. intros eigs tr t p e p' H. unfold estimate_plane_incrementally in H. destruct (replaced_Q tr t p); [|discriminate]. injection H as _ <-. reflexivity. Qed.
Print Assumptions C67_get_error_kept.
(** Full statement, false in the code: the time may be one used before.  The
    second call at the same time, for an unchanged trajectory, returns a negative error. *)
Definition right1 : M4 := mkM4 m3id (mkV3 1 0 0) v3zero 1.
Theorem C67_repeat_refuted : exists eigs ops p tr e p1 tr2 e2 p2 e3, (forall Q, m4tr Q = Q -> exact4 eigs Q) /\ Forall is_push ops /\ plane_run eigs ops (plane_new 1) = Some p /\
  Forall hom4 tr /\ Forall hom4 tr2 /\ same_but 0 tr tr2 /\
  estimate_plane eigs tr p = Some (e, p1) /\ estimate_plane_incrementally eigs tr2 0 p1 = Some (e2, p2) /\ get_error_incremental eigs tr2 0 p2 = Some e3 /\ e3 < 0.
Proof.
  destruct exact4_all_exists as [eigs H]. set (ops := [Push (mkV3 0 0 0) 0]). assert (F : Forall is_push ops) by (repeat constructor; unfold is_push; eauto). pose proof (no_clear_push _ F) as NC.
  destruct (C59_defined eigs 1 ops) as [p E]; [repeat constructor|]. assert (HR : Forall hom4 [right1]) by (repeat constructor).
  destruct (C60_least eigs 1 ops p [m4id] NC E (le_n 1) hom_id) as (e & v & p1 & A & _); [apply H, scatter_sym|].
  assert (SB : same_but 0 [m4id] [right1]) by (split; [reflexivity | intros [|i] N; auto; congruence]).
  pose proof (after_estimate eigs 1 ops p [m4id] e p1 NC E hom_id A) as HI.
  assert (US : map matrix_S (used 1 ops) = [outer4 (hom (mkV3 0 0 0)) (hom (mkV3 0 0 0))]) by (cbn; rewrite m4add_0_l; reflexivity). rewrite US in HI.
  destruct (increment_step eigs 1 [m4id] [m4id] _ p1 [right1] 0 m4id right1 _ HI SB eq_refl eq_refl eq_refl eq_refl) as (_ & p2 & A2 & [HS HQ HA] & _).
  exists eigs, ops, p, [m4id], e, p1, [right1]. eexists. exists p2. eexists. split; [exact H|]. split; [exact F|]. split; [exact E|]. split; [exact hom_id|]. split; [exact HR|]. split; [exact SB|]. split; [exact A|]. split; [exact A2|].
  unfold get_error_incremental, replaced_Q. rewrite HA, HQ, HS. cbn [nth_error Q_of map combine fst snd option_map]. split; [reflexivity|].
  set (M := m4add _ _). assert (SM : m4tr M = M) by (unfold M, Q_of, msum, conj4, outer4, hom, right1; cbn [map combine fst snd fold_right]; lin_unfold; lin_split; ring).
  destruct (H M SM) as (_ & _ & L). specialize (L (mkV4 (mkV3 (-1) 0 0) 1)). set (l := e4_val (eigs M)) in *. clearbody l. revert L. unfold M, Q_of, msum, conj4, outer4, hom, right1. cbn [map combine fst snd fold_right]. lin_unfold. intros L.
  match type of L with ?a <= ?b => replace a with (2 * l) in L by ring; replace b with (-1) in L by ring end. lra.
Qed.
Print Assumptions C67_repeat_refuted.
