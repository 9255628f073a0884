(** Proofs about the node classes. *)
Require Import Reals Lra List.
From Verif Require Import Lin LinFacts SO3 SO3Ops SE3 SE3Ops SpecGeom SO3Exp SO3Ln SO3Near SO3Dist SE3Alg SE3Ln Angle AngleProofs Nodes.
Import ListNotations.
Local Open Scope R_scope.

Lemma kind_update v dx : same_kind v (val_update v dx) = true. Proof. destruct v; reflexivity. Qed.
Lemma kind_update_aux v dx : same_kind v (val_update_aux v dx) = true. Proof. destruct v; reflexivity. Qed.
Lemma kind_set v : same_kind v (val_set v) = true. Proof. destruct v; reflexivity. Qed.
Lemma kind_init v : same_kind v (node_init v) = true. Proof. destruct v; reflexivity. Qed.
Lemma kind_refl v : same_kind v v = true. Proof. destruct v; reflexivity. Qed.
Lemma kind_sym a b : same_kind a b = true -> same_kind b a = true. Proof. destruct a, b; auto. Qed.
Lemma kind_trans a b c : same_kind a b = true -> same_kind b c = true -> same_kind a c = true.
Proof. destruct a, b; try discriminate; auto. Qed.
Lemma kind_dim a b : same_kind a b = true -> nval_dim a = nval_dim b. Proof. destruct a, b; auto; discriminate. Qed.

Lemma node_run_inv (P : ndata -> Prop) ops :
  (forall d o d', In o ops -> P d -> node_step d o = Some d' -> P d') ->
  forall d d', P d -> node_run d ops = Some d' -> P d'.
Proof.
  induction ops as [|o r IH]; intros H d d' Hd E; cbn in E.
  - injection E as <-; auto.
  - destruct (node_step d o) as [e|] eqn:S; [|discriminate]. apply (IH (fun d o d' I => H d o d' (or_intror I)) e); auto.
    apply (H d o); auto. left; auto.
Qed.
Lemma node_run_kind ops d d' v : same_kind v (nst d) = true -> same_kind v (nax d) = true ->
  node_run d ops = Some d' -> same_kind v (nst d') = true /\ same_kind v (nax d') = true.
Proof.
  intros A B. apply (node_run_inv (fun d => same_kind v (nst d) = true /\ same_kind v (nax d) = true)); auto.
  intros e o e' _ [Hs Ha] S. destruct o; cbn in S; unfold node_set_state, node_set_auxiliary_state in S.
  - injection S as <-; cbn. split; auto. exact (kind_trans _ _ _ Hs (kind_update _ _)).
  - injection S as <-; cbn. split; auto. exact (kind_trans _ _ _ Ha (kind_update_aux _ _)).
  - destruct (same_kind (nst e) v0) eqn:K; [|discriminate]. injection S as <-; cbn. split; auto.
    exact (kind_trans _ _ _ Hs (kind_trans _ _ _ K (kind_set _))).
  - destruct (same_kind (nax e) v0) eqn:K; [|discriminate]. injection S as <-; cbn. split; auto.
    exact (kind_trans _ _ _ Ha (kind_trans _ _ _ K (kind_set _))).
  - injection S as <-; cbn. split; auto. exact (kind_trans _ _ _ Hs (kind_set _)).
  - injection S as <-; cbn. split; auto. exact (kind_trans _ _ _ Ha (kind_set _)).
Qed.

(** ** 2D poses *)
Definition wrapped (x : V3) : Prop := - PI <= vz x < PI.
Definition sets_state (o : node_op) : bool :=
  match o with NUpdate _ | NUpdateAux _ | NSetState _ | NRestore => true | _ => false end.
Definition sets_aux (o : node_op) : bool :=
  match o with NSetAux _ | NBookkeep => true | _ => false end.
Lemma wrap3_wrapped x : wrapped (wrap3 x).
Proof. unfold wrapped, wrap3; cbn. apply wrap_angle_spec. Qed.
Lemma wrap3_id x : wrapped x -> wrap3 x = x.
Proof. destruct x as [a b c]. unfold wrapped, wrap3; cbn. intros. rewrite wrap_angle_id; auto. Qed.

Lemma step_pose2d x a o d' : node_step (mkN (P2 x) (P2 a)) o = Some d' ->
  exists y b, d' = mkN (P2 y) (P2 b) /\ (sets_state o = true -> wrapped y) /\ (sets_state o = false -> y = x) /\
    (sets_aux o = true -> wrapped b) /\ (sets_aux o = false -> b = a).
Proof.
  destruct o; cbn; unfold node_set_state, node_set_auxiliary_state; cbn; intros S.
  - injection S as <-. do 2 eexists. split; [reflexivity|]. split; [intros; apply wrap3_wrapped|]. repeat split; congruence.
  - injection S as <-. do 2 eexists. split; [reflexivity|]. split; [intros; apply wrap3_wrapped|]. repeat split; congruence.
  - destruct v; try discriminate. injection S as <-. do 2 eexists. split; [reflexivity|].
    split; [intros; apply wrap3_wrapped|]. repeat split; congruence.
  - destruct v; try discriminate. injection S as <-. do 2 eexists. split; [reflexivity|].
    split; [congruence|]. split; auto. split; [intros; apply wrap3_wrapped | congruence].
  - injection S as <-. do 2 eexists. split; [reflexivity|].
    split; [congruence|]. split; auto. split; [intros; apply wrap3_wrapped | congruence].
  - injection S as <-. do 2 eexists. split; [reflexivity|]. split; [intros; apply wrap3_wrapped|]. repeat split; congruence.
Qed.
Lemma run_pose2d ops : forall x a d', node_run (mkN (P2 x) (P2 a)) ops = Some d' ->
  exists y b, d' = mkN (P2 y) (P2 b) /\
    (wrapped y \/ (y = x /\ forallb (fun o => negb (sets_state o)) ops = true)) /\
    (wrapped b \/ (b = a /\ forallb (fun o => negb (sets_aux o)) ops = true)).
Proof.
  induction ops as [|o r IH]; intros x a d' E; cbn in E.
  - injection E as <-. exists x, a. repeat split; auto.
  - destruct (node_step _ o) as [e|] eqn:S; [|discriminate].
    destruct (step_pose2d _ _ _ _ S) as (y & b & -> & A & B & C & D).
    destruct (IH y b d' E) as (y' & b' & -> & F & G). exists y', b'. split; auto. cbn [forallb].
    split.
    + destruct F as [F|[F F']]; auto. subst y'. destruct (sets_state o); auto.
    + destruct G as [G|[G G']]; auto. subst b'. destruct (sets_aux o); auto.
Qed.

(** ** planes *)
Lemma v3sqn_pos_iff n : 0 < v3sqn n <-> n <> v3zero.
Proof.
  split. { intros H E. subst. revert H. lin_unfold. lra. }
  intros H. destruct n as [a b c]. lin_unfold.
  pose proof (Rle_0_sqr a) as A. pose proof (Rle_0_sqr b) as B. pose proof (Rle_0_sqr c) as C. unfold Rsqr in *.
  destruct (Req_dec a 0) as [->|]; [destruct (Req_dec b 0) as [->|]; [destruct (Req_dec c 0) as [->|]|]|].
  - exfalso; apply H; reflexivity.
  - pose proof (Rsqr_pos_lt c ltac:(auto)). unfold Rsqr in *. lra.
  - pose proof (Rsqr_pos_lt b ltac:(auto)). unfold Rsqr in *. lra.
  - pose proof (Rsqr_pos_lt a ltac:(auto)). unfold Rsqr in *. lra.
Qed.
Lemma normalize_unit n : n <> v3zero -> v3norm (v3normalize n) = 1.
Proof.
  intros H. apply v3sqn_pos_iff in H. unfold v3normalize. rewrite (proj2 (Rltb_iff 0 (v3sqn n)) H).
  unfold v3norm at 1. assert (0 < v3norm n) by (apply sqrt_lt_R0; auto).
  replace (v3sqn (v3scal (/ v3norm n) n)) with (/ v3norm n * / v3norm n * v3sqn n) by (generalize (/ v3norm n); lin).
  replace (v3sqn n) with (v3norm n * v3norm n) by (apply sqrt_sqrt; lra).
  replace (/ v3norm n * / v3norm n * (v3norm n * v3norm n)) with 1 by (field; lra). apply sqrt_1.
Qed.
Lemma normalize_zero : v3normalize v3zero = v3zero.
Proof. unfold v3normalize. destruct (Rltb 0 (v3sqn v3zero)) eqn:E; auto. apply Rltb_iff in E. revert E. lin_unfold. lra. Qed.
Lemma v3norm_1_sqn n : v3norm n = 1 -> v3sqn n = 1.
Proof.
  intros E. assert (P : 0 <= v3sqn n).
  { unfold v3sqn, v3dot. pose proof (Rle_0_sqr (vx n)). pose proof (Rle_0_sqr (vy n)). pose proof (Rle_0_sqr (vz n)). unfold Rsqr in *. lra. }
  unfold v3norm in E. rewrite <- (sqrt_sqrt (v3sqn n)) by auto. rewrite E. ring.
Qed.
Lemma normalize_of_unit n : v3norm n = 1 -> v3normalize n = n.
Proof.
  intros E. unfold v3normalize. rewrite E. replace (v3scal (/ 1) n) with n.
  destruct (Rltb 0 (v3sqn n)); auto. rewrite Rinv_1. lin.
Qed.
(** parallel to the summed normal, same side *)
Lemma normalize_parallel n : exists k, 0 < k /\ v3normalize n = v3scal k n.
Proof.
  unfold v3normalize. destruct (Rltb 0 (v3sqn n)) eqn:E.
  - apply Rltb_iff in E. exists (/ v3norm n). split; auto. apply Rinv_0_lt_compat. apply sqrt_lt_R0; auto.
  - exists 1. split; [lra|]. lin.
Qed.
Definition unit_or_zero (v : nval) : Prop :=
  match v with PL p => v3norm (v4h p) = 1 \/ v4h p = v3zero | _ => False end.
Definition no_set (o : node_op) : Prop := match o with NSetState _ | NSetAux _ => False | _ => True end.
Lemma normalize_uz n : v3norm (v3normalize n) = 1 \/ v3normalize n = v3zero.
Proof.
  destruct (Rle_or_lt (v3sqn n) 0) as [L|L].
  - right. unfold v3normalize. rewrite (proj2 (Rltb_niff 0 (v3sqn n))) by auto.
    destruct (Req_dec (vx n) 0), (Req_dec (vy n) 0), (Req_dec (vz n) 0);
      try (assert (n <> v3zero) as NZ by (intros ->; cbn in *; lra); apply v3sqn_pos_iff in NZ; lra).
    destruct n; cbn in *; subst; reflexivity.
  - left. apply normalize_unit, v3sqn_pos_iff; auto.
Qed.
Lemma run_plane ops d d' : unit_or_zero (nst d) -> unit_or_zero (nax d) -> Forall no_set ops ->
  node_run d ops = Some d' -> unit_or_zero (nst d') /\ unit_or_zero (nax d').
Proof.
  intros A B F. apply (node_run_inv (fun d => unit_or_zero (nst d) /\ unit_or_zero (nax d))); auto.
  rewrite Forall_forall in F.
  intros [s a] o e' Io [Hs Ha] S. specialize (F o Io). destruct o; cbn in S; try (now destruct F).
  all: destruct s, a; try (now destruct Hs); try (now destruct Ha).
  all: injection S as <-; cbn in *; auto using normalize_uz.
Qed.

(** ** 3D poses *)
Lemma so3_ln_hat A : exists w o, so3_ln A = (hat3 w, o).
Proof.
  unfold so3_ln. cbv zeta.
  destruct (Rltb (-1 + 1) ((m3trace A - 1) * (1 / 2))).
  - destruct (acos_d _) as [o|].
    + destruct (Rltb o (1 / 100000)).
      * do 2 eexists. f_equal. instantiate (1 := vee3 (m3scal (1 / 2 + o * o / 12) (m3sub A (m3tr A)))).
        unfold hat3, vee3. lin.
      * do 2 eexists. f_equal. instantiate (1 := vee3 (m3scal (1 / 2 * o / sin o) (m3sub A (m3tr A)))).
        generalize (1 / 2 * o / sin o). unfold hat3, vee3. lin.
    + do 2 eexists. f_equal. instantiate (1 := v3zero). unfold hat3. lin.
  - match goal with |- context [hat3 ?w] => generalize w end. intros w.
    destruct (Rltb (m3norm _) (m3norm _)).
    + exists (v3scal (-1) w). eexists. f_equal. unfold hat3. lin.
    + do 2 eexists. reflexivity.
Qed.
Lemma regenerate_near T : near_rigid (/ 10 ^ 30) (se3_regenerate T).
Proof.
  destruct (so3_ln_hat (mR T)) as (w & o & E). rewrite (se3_regenerate_block T w o E).
  split; [apply near_rotation_exp | split; reflexivity].
Qed.
Definition good_pose (T : M4) : Prop :=
  rigid T /\ exists theta, rotation_angle (mR T) theta /\
  (theta = 0 \/ 5 / 1000 < theta <= PI - 6 / 100000000 \/ theta = PI) /\
  (theta < PI / 2 \/
    (m3app (mR T) (mkV3 1 1 0) <> mkV3 1 1 0 /\ m3app (mR T) (mkV3 1 (-1) 0) <> mkV3 1 (-1) 0)).
Lemma update_pose3d T dx : good_pose (se3_update_lhs T (dx6 dx)) ->
  val_update (P3 T) dx = P3 (m4mul (se3_of_vec (dx6 dx)) T).
Proof.
  intros (HT & th & A & B & C). cbn. f_equal. exact (regenerate_exact _ th HT A B C).
Qed.

(** ** bookkeeping *)
Definition aux_kept (o : node_op) : Prop := sets_aux o = false.
Lemma run_aux_kept ops d d' : Forall aux_kept ops -> node_run d ops = Some d' -> nax d' = nax d.
Proof.
  intros F. apply (node_run_inv (fun e => nax e = nax d)); auto.
  rewrite Forall_forall in F. intros e o e' I H S. specialize (F o I).
  destruct o; cbn in S; try discriminate; try (injection S as <-; auto).
  unfold node_set_state in S. destruct (same_kind _ _); [injection S as <-; auto | discriminate].
Qed.
Lemma val_set_set v : val_set (val_set v) = val_set v.
Proof. destruct v; cbn; auto. rewrite wrap3_id; auto using wrap3_wrapped. Qed.
Lemma bookkeep_restore d ops d' : Forall aux_kept ops ->
  node_run d (NBookkeep :: ops ++ [NRestore]) = Some d' -> nst d' = val_set (nst d).
Proof.
  intros F E. cbn in E.
  assert (R : forall l e e', node_run e (l ++ [NRestore]) = Some e' -> exists m, node_run e l = Some m /\ e' = node_restore m).
  { induction l as [|o l IH]; intros e e' H; cbn in *.
    - injection H as <-. eauto.
    - destruct (node_step e o); [|discriminate]. auto. }
  destruct (R _ _ _ E) as (m & Em & ->). cbn. rewrite (run_aux_kept _ _ _ F Em). cbn. apply val_set_set.
Qed.

(** ** increments compose *)
Definition dadd (a b : nat -> R) : nat -> R := fun i => a i + b i.
Lemma update_compose v a b : match v with P3 _ | PL _ => False | _ => True end ->
  val_update (val_update v a) b = val_update v (dadd a b).
Proof.
  destruct v; cbn; intros H; try (now destruct H).
  - f_equal. unfold wrap3, dx3, dadd; cbn. f_equal; try ring. apply wrap_angle_same.
    destruct (wrap_angle_spec (vz x + a 2%nat)) as [_ [k ->]]. exists k. lra.
  - unfold dadd. f_equal; ring.
  - f_equal. unfold dx3, dadd, v3add; cbn. f_equal; ring.
Qed.
Definition dzero : nat -> R := fun _ => 0.
Lemma update_zero v : match v with
  | P2 x => wrapped x | PL p => v3norm (v4h p) = 1 | P3 T => good_pose T | _ => True end ->
  val_update v dzero = v.
Proof.
  destruct v; cbn; intros H.
  - f_equal. rewrite wrap3_id. unfold dx3, dzero. lin. destruct x; unfold wrapped, dx3, dzero in *; cbn in *; lra.
  - f_equal. assert (E : se3_update_lhs T (dx6 dzero) = T).
    { unfold se3_update_lhs. replace (se3_of_vec (dx6 dzero)) with m4id.
      - apply m4mul_id_l.
      - rewrite se3_of_vec_block. change (v6w (dx6 dzero)) with v3zero. change (v6v (dx6 dzero)) with v3zero.
        replace (so3_of_vec v3zero) with m3id. 
        + unfold se3_of_Rt, m4id. f_equal. symmetry. generalize (Vmat v3zero). lin.
        + symmetry. apply so3_exp_zero. }
    rewrite E. destruct H as (HT & th & A & B & C). exact (regenerate_exact _ th HT A B C).
  - unfold dzero. f_equal; ring.
  - f_equal. unfold dx3, dzero. lin.
  - f_equal. unfold plane_normalize, v4add, dx4, dzero; cbn. destruct p as [h l]; cbn in *.
    replace (v3add h (dx3 (fun _ => 0))) with h by (unfold dx3; lin).
    rewrite normalize_of_unit by auto. f_equal. ring.
Qed.
