(** Proofs for C95. *)
Require Import Reals List Arith Lia Lra Bool Sorted.
From Verif Require Import Lin LinFacts SpecGeom SO3 SE3 SO3Exp SO3Ln SO3Misc SE3Alg SE3Exp SE3Ln SE3Cov SE3CovProofs Nodes NodesProofs Robust Graph GraphProofs Sums Solve SpecSolve SolveIndex SolveFrame SolveSums SolveBuild SolveProofs Session SessionProofs.
From Verif Require Import Factors SpecFactors FactorsDer FactorsPlanar Factors3D Factors3DLn FactorsMore FactorsSession FrameSolve FrameSession SpecSolvable SolvableFactors SolvableSession MappingSession LMMapping Reorder SpecChain.
Import ListNotations.
Local Open Scope R_scope.
Local Arguments nd : simpl never.
Local Arguments fa : simpl never.

(** ** the nodes of a session stay in the order in which they were added *)
Record in_order (w : world) : Prop := {
  io_nodes : g_nodes (w_graph w) = seq 0 (length (w_nodes w));
  io_sorted : StronglySorted lt (g_active (w_graph w));
  io_bound : forall l, In l (g_active (w_graph w)) -> (l < length (w_nodes w))%nat }.
Lemma sorted_snoc l a : StronglySorted lt l -> (forall x, In x l -> (x < a)%nat) -> StronglySorted lt (l ++ [a]).
Proof.
  intros S. induction S as [|x l S IH F]; intros H; cbn. { repeat constructor. } constructor.
  - apply IH. intros y I. apply H. right; auto.
  - apply Forall_app. split; auto. constructor; auto. apply H. left; auto.
Qed.
Lemma in_order_node w m v u : in_order w -> py_node w m v = Some u -> in_order u.
Proof.
  intros [A B C] E. rewrite py_node_eq in E. injection E as <-. constructor; cbn [w_graph w_nodes g_nodes g_active]; rewrite ?upd_length, ?app_length; cbn [length].
  - rewrite Nat.add_1_r, seq_S, A. reflexivity.
  - destruct m; auto. apply sorted_snoc; auto.
  - intros l I. assert (J : In l (g_active (w_graph w)) \/ l = length (w_nodes w)) by (destruct m; auto; apply in_app_iff in I; destruct I as [I|[I|[]]]; auto). destruct J as [J| ->]; [specialize (C l J)|]; lia.
Qed.
Lemma in_order_keep w u : w_graph u = w_graph w -> length (w_nodes u) = length (w_nodes w) -> in_order w -> in_order u.
Proof. intros G L [A B C]. constructor; rewrite ?G, ?L; auto. Qed.
Lemma in_order_factor rob w c ids W u : in_order w -> py_factor rob w c ids W = Some u -> in_order u.
Proof.
  intros O E. unfold py_factor in E. destruct (get_nodes w ids) as [ls|]; [|discriminate].
  assert (X : forall w1, in_order w1 -> w_factors w1 = w_factors w -> grun w1 [ONewFactor (fc_dim c) (fc_alldim c) ls (fc_res c) (fc_jac c) W rob; OAddFactor (length (w_factors w))] = Some u -> in_order u).
  { intros w1 [A B C] F Q. rewrite <- F in Q. apply add_new_eq in Q. subst u. constructor; cbn [w_graph w_nodes g_nodes g_active]; rewrite ?link_all_length; auto. }
  destruct (fc_init c) as [[p g]|]; [|apply (X w); auto]. destruct (nth_error ls p) as [n|]; [|discriminate]. cbn [app] in E.
  change (match gstep w (OSetState n (g (map (fun l => nst (n_data (nd w l))) ls))) with Some w1 => grun w1 [ONewFactor (fc_dim c) (fc_alldim c) ls (fc_res c) (fc_jac c) W rob; OAddFactor (length (w_factors w))] | None => None end = Some u) in E.
  destruct (gstep w (OSetState n _)) as [w1|] eqn:G; [|discriminate]. destruct (gstep_nodes_keep _ _ _ G I) as [G1 L1]. apply (X w1); auto.
  - apply (in_order_keep w); auto.
  - cbn [gstep] in G. apply set_state_inv in G. destruct G as (x & d & _ & _ & ->). reflexivity.
Qed.
Lemma in_order_run lin rob ops : forall s s', in_order (s_w s) -> pyrun lin rob s ops = Some s' -> in_order (s_w s').
Proof.
  induction ops as [|o ops IH]; intros s s' O E; cbn [pyrun] in E. { injection E as <-. auto. }
  destruct (pystep lin rob s o) as [s1|] eqn:P; [|discriminate]. apply (IH s1 s'); auto. clear IH E. destruct o; cbn [pystep] in P.
  - destruct (py_node (s_w s) m v) as [u|] eqn:Q; [|discriminate]. injection P as <-. exact (in_order_node _ _ _ _ O Q).
  - destruct (py_factor rob (s_w s) c ids info) as [u|] eqn:Q; [|discriminate]. injection P as <-. exact (in_order_factor _ _ _ _ _ _ O Q).
  - destruct (solve_frame _ _ _ _ _ _ _ P) as [K _]. apply (in_order_keep (s_w s)); [apply (sk_graph _ _ K)|apply (sk_nlen _ _ K)|auto].
  - injection P as <-. cbn [with_world s_w]. destruct (chi2_fst (s_w s) evaluate) as [K _]. apply (in_order_keep (s_w s)); [apply (sk_graph _ _ K)|apply (sk_nlen _ _ K)|auto].
Qed.
Lemma sorted_range n : forall a l, StronglySorted lt l -> (forall x, In x l <-> (a <= x < a + n)%nat) -> l = seq a n.
Proof.
  induction n as [|n IH]; intros a l S H.
  - destruct l as [|x l]; auto. exfalso. specialize (proj1 (H x) (or_introl eq_refl)). lia.
  - assert (Ia : In a l) by (apply H; lia). destruct S as [|x l S F]; [destruct Ia|]. rewrite Forall_forall in F.
    assert (x = a) as ->. { destruct Ia as [|Ia]; auto. specialize (F a Ia). specialize (proj1 (H x) (or_introl eq_refl)). lia. }
    cbn [seq]. f_equal. apply IH; auto. intros y. split.
    + intros I. pose proof (F y I). pose proof (proj1 (H y) (or_intror I)). lia.
    + intros L. destruct (proj2 (H y) ltac:(lia)) as [->|I]; [lia|auto].
Qed.

(** ** the factors of the chain at rest *)
Lemma chain_facts cs obs W n : odometry cs obs W n -> exists i, flat_map facts cs = map (fun k => (c_2poses3d (obs k) (i k), [k; S k], W k)) (seq 0 n).
Proof.
  intros ((u & F) & _). exists (fun k => target_pos false (u k)).
  transitivity (flat_map facts (filter measures cs)).
  - clear. induction cs as [|c cs IH]; [reflexivity|]. cbn [flat_map filter]. unfold measures at 1, facts at 1. destruct (call_factor c) as [f|] eqn:E; cbn [app flat_map]; rewrite IH; [|reflexivity]. unfold facts at 2. rewrite E. reflexivity.
  - rewrite F. clear. induction (seq 0 n) as [|k l IH]; [reflexivity|]. cbn [map flat_map]. rewrite IH. clear IH. unfold facts at 1, call_factor. cbn [pycall_op]. destruct (Nat.ltb_spec k (S k)); [reflexivity|lia].
Qed.
Lemma rest_jd obs i A (st : nat -> nval) d k a : rigid obs -> rigid A -> st k = P3 A -> st (S k) = P3 (m4mul A obs) -> (a < 6)%nat ->
  f_jd st d (c_2poses3d obs i) [k; S k] a = d k a - d (S k) a.
Proof.
  intros HO HA Ek Es Ha. unfold f_jd. cbn [map]. rewrite Ek, Es. cbn [c_2poses3d fc_jac]. unfold jac_2poses3d. rewrite (proj2 (tr_id_iff obs A (m4mul A obs) HO HA (rigid_mul _ _ HA HO)) eq_refl).
  destruct (i_lt_6 a Ha) as [->|[->|[->|[->|[->| ->]]]]]; unfold se3_adj, m4id, hat3; cbn; ring.
Qed.
Lemma rest_weight rob obs i A (st : nat -> nval) k W : rob <> RANSAC -> rigid obs -> rigid A -> st k = P3 A -> st (S k) = P3 (m4mul A obs) ->
  f_w rob st (c_2poses3d obs i, [k; S k], W) = 1.
Proof.
  intros NR HO HA Ek Es. unfold f_w, f_c. cbn [map]. rewrite Ek, Es. pose proof (poses3d_zero_eq obs i A HO HA) as Z. unfold zero_residual in Z. unfold quad. rewrite sumn_zero; [|intros p Hp; apply sumn_zero; intros q Hq; rewrite (Z p Hp); ring].
  rewrite Rmult_0_r, sqrt_0. destruct rob; cbn; try congruence; unfold Rltb; try destruct (Rlt_dec 0 1); try lra; field.
Qed.
Lemma quad_inverse W Q x b : inverse_of 6 W Q -> (b < 6)%nat -> quad 6 W x (fun a => Q a b) = x b.
Proof.
  intros H Hb. unfold quad. transitivity (sumn 6 (fun a => x a * (if Nat.eqb a b then 1 else 0))).
  - apply sumn_ext. intros a Ha. rewrite <- (H a b Ha Hb), sumn_mult_l. apply sumn_ext. intros; ring.
  - destruct (i_lt_6 b Hb) as [->|[->|[->|[->|[->| ->]]]]]; cbn; ring.
Qed.
(** the increments of the column of the covariance that belongs to entry [b] of pose [S j] *)
Definition way (Q : nat -> nat -> nat -> R) (j b i a : nat) : R := sumn (min i (S j)) (fun k => Q k a b).
Lemma way_step Q j b k a : way Q j b k a - way Q j b (S k) a = if Nat.leb k j then - Q k a b else 0.
Proof.
  unfold way. destruct (Nat.leb_spec k j).
  - rewrite !Nat.min_l by lia. cbn [sumn]. ring.
  - rewrite !Nat.min_r by lia. ring.
Qed.
Lemma telescope f n j : (j < n)%nat -> sumn n (fun k => if Nat.leb k j then f (S k) - f k else 0) = f (S j) - f 0%nat.
Proof.
  induction n as [|n IH]; intros H; [lia|]. cbn [sumn]. destruct (Nat.eq_dec j n) as [->|N].
  - rewrite Nat.leb_refl. transitivity (sumn n (fun k => f (S k) - f k) + (f (S n) - f n)).
    + f_equal. apply sumn_ext. intros k Hk. destruct (Nat.leb_spec k n); [auto|lia].
    + clear. assert (T : sumn n (fun k => f (S k) - f k) = f n - f 0%nat) by (induction n as [|n IH]; cbn [sumn]; [ring|rewrite IH; ring]). rewrite T. ring.
  - rewrite IH by lia. destruct (Nat.leb_spec n j); [lia|]. ring.
Qed.
Lemma chain_form rob (st : nat -> nval) T obs W Q n i (d e : nat -> nat -> R) j b : rob <> RANSAC -> dead_reckoning T obs n -> (forall k, (k <= n)%nat -> st k = P3 (T k)) ->
  (forall k, (k < n)%nat -> inverse_of 6 (W k) (Q k)) -> (j < n)%nat -> (b < 6)%nat -> (forall k a, (k <= n)%nat -> (a < 6)%nat -> e k a = way Q j b k a) ->
  lsum (map (fun k => (c_2poses3d (obs k) (i k), [k; S k], W k)) (seq 0 n)) (f_f rob st d e) = d (S j) b - d 0%nat b.
Proof.
  intros NR [R0 DR] St IV Hj Hb He. rewrite lsum_map, lsum_seq.
  assert (RT : forall k, (k <= n)%nat -> rigid (T k)). { induction k as [|k IH]; intros L; auto. destruct (DR k ltac:(lia)) as [Ro ->]. apply rigid_mul; auto. apply IH; lia. }
  rewrite <- (telescope (fun k => d k b) n j Hj). apply sumn_ext. intros k Hk. destruct (DR k Hk) as [Ro Ek].
  assert (Sk : st k = P3 (T k)) by (apply St; lia). assert (Ss : st (S k) = P3 (m4mul (T k) (obs k))) by (rewrite <- Ek; apply St; lia).
  unfold f_f. rewrite (rest_weight rob (obs k) (i k) (T k) st k (W k) NR Ro (RT k ltac:(lia)) Sk Ss), Rmult_1_l. change (fc_dim (c_2poses3d (obs k) (i k))) with 6%nat.
  rewrite (quad_ext 6 (W k) _ _ (fun a => d k a - d (S k) a) (fun a => if Nat.leb k j then - Q k a b else 0)).
  - destruct (Nat.leb k j).
    + rewrite (quad_ext 6 (W k) _ _ (fun a => d k a - d (S k) a) (fun a => Q k a b * -1)); [|auto|intros; ring]. rewrite DenseProofs.quad_scal_r, quad_inverse by auto. ring.
    + unfold quad. apply sumn_zero. intros p Hp. apply sumn_zero. intros q Hq. ring.
  - intros a Ha. apply (rest_jd _ _ (T k)); auto. apply RT; lia.
  - intros a Ha. rewrite (rest_jd _ _ (T k)) by (auto; apply RT; lia). rewrite !He by lia. apply way_step.
Qed.

(** ** where the poses of the chain are in the vector of unknowns *)
Lemma seq_at n : forall a i l, nth_error (seq a n) i = Some l -> l = (a + i)%nat.
Proof. induction n as [|n IH]; intros a [|i] l E; cbn in E; try discriminate; [injection E as <-; lia|]. apply IH in E. lia. Qed.
Section Layout.
Variables (rob : robust_type) (cs : list pycall) (w : world) (obs : nat -> M4) (W : nat -> nat -> nat -> R) (n : nat).
Hypothesis (V : inv rob cs w) (O : in_order w) (Od : odometry cs obs W n).
Lemma lay_node i : (i <= n)%nat -> get_node w i = Some i /\ (i <> 0%nat -> n_mode (nd w i) = STANDARD) /\ ndim w i = 6%nat.
Proof using V O Od.
  intros Hi. destruct Od as (_ & (A0 & N0) & Len & Ns).
  assert (E : exists m A, nth_error (nodes_of cs) i = Some (m, P3 A) /\ (i <> 0%nat -> m = STANDARD)). { destruct i as [|i]; [exists ANCHOR, A0; split; auto; lia|]. destruct (Ns i ltac:(lia)) as [A E]. exists STANDARD, A. auto. }
  destruct E as (m & A & E & M). destruct (mode_of rob cs w i m _ V E) as (l & G & Ml & Id & Es & K).
  assert (l = i) as ->. { pose proof G as G2. unfold get_node in G2. rewrite (io_nodes _ O) in G2. apply seq_at in G2. lia. }
  split; auto. split; [intros Z; rewrite Ml; auto|]. destruct (gd_ids _ (iv_good _ _ _ V) i i G) as [L _]. destruct (gd_kind _ (iv_good _ _ _ V) i L) as [D _]. unfold ndim. rewrite D, <- Es. destruct (state_of w i); try discriminate. reflexivity.
Qed.
Lemma lay_active : g_active (w_graph w) = seq 1 n.
Proof using V O Od.
  apply sorted_range; [apply (io_sorted _ O)|]. intros x. pose proof Od as (_ & (A0 & N0) & Len & Ns). split.
  - intros I. destruct (act_in rob cs w V x I) as (i & G & Id & Hi & _). pose proof G as G2. unfold get_node in G2. rewrite (io_nodes _ O) in G2. apply seq_at in G2. cbn in G2. subst x.
    assert (J : In i (act_ids w)) by (unfold act_ids; apply in_map_iff; exists i; auto). apply (act_iff rob cs w V) in J. destruct J as (m & v & E & NA). destruct i as [|i]; [congruence|]. lia.
  - intros [L1 L2]. destruct x as [|x]; [lia|]. destruct (Ns x ltac:(lia)) as [A E]. destruct (lay_node (S x) ltac:(lia)) as (G & _). destruct (standard_active rob cs w (S x) _ _ (S x) V E ltac:(discriminate) G) as [a Ea]. eapply nth_error_In; eauto.
Qed.
Lemma seq_nth_ok i : (i < n)%nat -> nth_error (seq 1 n) i = Some (S i).
Proof using. intros H. rewrite (nth_error_nth' _ 0%nat) by (rewrite seq_length; auto). rewrite seq_nth by auto. reflexivity. Qed.
Lemma lay_col i : (i <= n)%nat -> col w i = (6 * i)%nat.
Proof using V O Od.
  unfold col. rewrite lay_active. induction i as [|i IH]; intros H; [reflexivity|]. rewrite (before_S _ _ i (S i)) by (apply seq_nth_ok; lia). rewrite IH by lia. destruct (lay_node (S i) H) as (_ & _ & ->). lia.
Qed.
Lemma lay_dim : g_stateDim (w_graph w) = (6 * n)%nat.
Proof using V O Od.
  rewrite (wf_state _ (gd_wf _ (iv_good _ _ _ V))), <- before_all. fold (col w (length (g_active (w_graph w)))). rewrite lay_active, seq_length. apply lay_col. auto.
Qed.
Lemma lay_inc x i a : (i < n)%nat -> inc_of w x (S i) a = x (6 * i + a)%nat.
Proof using V O Od.
  intros H. unfold inc_of. destruct (lay_node (S i) ltac:(lia)) as (-> & _). rewrite (increments_at w x i (S i) a (gd_wf _ (iv_good _ _ _ V))) by (rewrite lay_active; apply seq_nth_ok; auto). rewrite lay_col by lia. reflexivity.
Qed.
Lemma lay_0 x a : inc_of w x 0 a = 0.
Proof using V O Od. destruct Od as (_ & (A0 & N0) & _). eapply anchor_inc; eauto. Qed.
End Layout.
Lemma split6 i a : (a < 6)%nat -> ((6 * i + a) / 6 = i /\ (6 * i + a) mod 6 = a)%nat.
Proof. intros H. split; [symmetry; apply (Nat.div_unique _ 6 i a); lia | symmetry; apply (Nat.mod_unique _ 6 i a); lia]. Qed.
Lemma split_pos n q : (q < 6 * n)%nat -> exists j b, (j < n)%nat /\ (b < 6)%nat /\ q = (6 * j + b)%nat.
Proof. intros H. exists (q / 6)%nat, (q mod 6)%nat. split; [apply Nat.div_lt_upper_bound; lia|]. split; [apply Nat.mod_upper_bound; lia|]. apply Nat.div_mod; lia. Qed.
Lemma shared_sym Q p q : (forall k, sym_on 6 (Q k)) -> shared_way Q p q = shared_way Q q p.
Proof. intros H. unfold shared_way. rewrite Nat.min_comm. apply sumn_ext. intros k _. apply H; apply Nat.mod_upper_bound; lia. Qed.

(** ** the information matrix of the chain *)
Section Build.
Variables (lin : linear_solver) (rob : robust_type) (cs : list pycall) (s : solver) (T obs : nat -> M4) (W Q : nat -> nat -> nat -> R) (n : nat).
Hypothesis (Ty : typed [] cs) (P : Forall call_info cs) (Od : odometry cs obs W n) (NR : rob <> RANSAC).
Hypothesis (E : pycalls lin rob (solver_new world_new) cs = Some s).
Hypothesis (DR : dead_reckoning T obs n) (St : forall k, (k <= n)%nat -> state_of (s_w s) k = P3 (T k)).
Hypothesis (IV : forall k, (k < n)%nat -> inverse_of 6 (W k) (Q k)).
Lemma chain_build : exists b, build_problem false s = Some b /\ g_stateDim (w_graph (s_w s)) = (6 * n)%nat /\
  (forall x y, form (6 * n) (s_L b) x y = form (6 * n) (s_L b) y x) /\
  forall x q, (q < 6 * n)%nat -> form (6 * n) (s_L b) x (fun p => shared_way Q p q) = x q.
Proof using Ty P Od NR E DR St IV.
  destruct (session_inv lin rob cs Ty) as (s0 & E0 & V & _). rewrite E in E0. injection E0 as <-.
  assert (O : in_order (s_w s)). { apply (in_order_run lin rob (map pycall_op cs) (solver_new world_new)); [|exact E]. constructor; cbn; auto. constructor. intros l []. }
  pose proof (gd_wf _ (iv_good _ _ _ V)) as Wf. destruct (build_wf s Wf) as (b0 & Eb & B). exists (build_info_adjacency b0). unfold build_problem. rewrite Eb. split; [reflexivity|].
  pose proof (lay_dim rob cs (s_w s) obs W n V O Od) as D. split; [exact D|].
  assert (F : forall x y, form (6 * n) (s_L (build_info_adjacency b0)) x y = gn_form (s_w s) x y). { intros x y. rewrite <- D. apply (normal_matrix s b0 x y Wf B). }
  destruct (chain_facts cs obs W n Od) as [i Fi]. split.
  - intros x y. rewrite !F, !(facts_form rob cs (s_w s) V P NR). apply lsum_ext. intros [[cl ids] Wf0] I. unfold f_f. f_equal. apply quad_comm. apply in_flat_map in I. destruct I as (c & Ic & If). rewrite Forall_forall in P. specialize (P c Ic). unfold call_info in P. unfold facts in If. destruct (call_factor c) as [[[cl' ids'] W']|]; [|destruct If]. destruct If as [If|[]]. injection If as -> -> ->. apply P.
  - intros x q Hq. rewrite F, (facts_form rob cs (s_w s) V P NR), Fi. destruct (split_pos n q Hq) as (j & b & Hj & Hb & ->).
    rewrite (chain_form rob (state_of (s_w s)) T obs W Q n i _ _ j b NR DR St IV Hj Hb).
    + rewrite (lay_inc rob cs (s_w s) obs W n V O Od), (lay_0 rob cs (s_w s) obs W n V O Od) by auto. ring.
    + intros k a Hk Ha. destruct k as [|k]. { rewrite (lay_0 rob cs (s_w s) obs W n V O Od). reflexivity. }
      rewrite (lay_inc rob cs (s_w s) obs W n V O Od) by lia. unfold shared_way, way. destruct (split6 k a Ha) as [-> ->]. destruct (split6 j b Hb) as [-> ->]. reflexivity.
Qed.
End Build.
Lemma dot_unit n x p : (p < n)%nat -> sumn n (fun k => (if Nat.eqb k p then 1 else 0) * x k) = x p.
Proof.
  intros H. rewrite (sumn_single n p _ H). { rewrite Nat.eqb_refl. ring. } intros k _ N. apply Nat.eqb_neq in N. rewrite N. ring.
Qed.
Lemma inverse_columns n L C : (forall x q, (q < n)%nat -> form n L x (fun p => C p q) = x q) -> inverse_of n L C.
Proof.
  intros H p q Hp Hq. specialize (H (fun k => if Nat.eqb k p then 1 else 0) q Hq). rewrite form_rows in H. unfold dot in H. rewrite dot_unit in H by auto. rewrite H. rewrite Nat.eqb_sym. reflexivity.
Qed.
Lemma inverse_only n L C D : (forall x y, form n L x y = form n L y x) -> (forall x q, (q < n)%nat -> form n L x (fun p => C p q) = x q) -> inverse_of n L D -> forall p q, (p < n)%nat -> (q < n)%nat -> D p q = C p q.
Proof.
  intros S H I p q Hp Hq. transitivity (C q p). 2:{ rewrite <- (H (fun i => C i p) q Hq), S. apply (H (fun i => C i q)); auto. } rewrite <- (H (fun i => D i q) p Hp), S, form_rows. unfold dot. transitivity (sumn n (fun k => (if Nat.eqb k q then 1 else 0) * C k p)); [|apply (dot_unit n (fun k => C k p)); auto]. apply sumn_ext. intros k Hk. rewrite (I k q Hk Hq). ring.
Qed.

(** ** compounding *)
Lemma compounded_T T0 obs C T n : T 0%nat = T0 -> (forall k, (k < n)%nat -> T (S k) = m4mul (T k) (obs k)) -> forall k, (k <= n)%nat -> sc_T (compounded T0 obs C k) = T k.
Proof. intros E H. induction k as [|k IH]; intros L; cbn; auto. rewrite IH by lia. symmetry. apply H. lia. Qed.
Lemma entries6_add A B i j : (i < 6)%nat -> (j < 6)%nat -> entries6 (m6add A B) i j = entries6 A i j + entries6 B i j.
Proof. intros Hi Hj. destruct (i_lt_6 i Hi) as [->|[->|[->|[->|[->| ->]]]]]; destruct (i_lt_6 j Hj) as [->|[->|[->|[->|[->| ->]]]]]; reflexivity. Qed.
Lemma compounded_cov T0 obs C T n : T 0%nat = T0 -> (forall k, (k < n)%nat -> T (S k) = m4mul (T k) (obs k)) -> forall k i j, (k <= n)%nat -> (i < 6)%nat -> (j < 6)%nat ->
  entries6 (sc_cov (compounded T0 obs C k)) i j = sumn k (fun m => entries6 (carried (T m) (C m)) i j).
Proof.
  intros E H. induction k as [|k IH]; intros i j L Hi Hj.
  - destruct (i_lt_6 i Hi) as [->|[->|[->|[->|[->| ->]]]]]; destruct (i_lt_6 j Hj) as [->|[->|[->|[->|[->| ->]]]]]; reflexivity.
  - cbn [compounded compound2 sc_cov sumn]. rewrite entries6_add, IH by lia. rewrite (compounded_T T0 obs C T n E H k) by lia. reflexivity.
Qed.
Lemma chain_info cs obs W n k : Forall call_info cs -> odometry cs obs W n -> (k < n)%nat -> sym_on 6 (W k) /\ psd_on 6 (W k).
Proof.
  intros P ((u & F) & _) Hk. rewrite Forall_forall in P. assert (I : In (C2Poses3d (obs k) k (S k) (W k) (u k)) cs).
  { apply (filter_In measures). rewrite F. apply in_map_iff. exists k. split; auto. apply in_seq. lia. }
  specialize (P _ I). unfold call_info, call_factor in P. cbn [pycall_op] in P. destruct (k <? S k)%nat; exact P.
Qed.
Lemma inverse_quad W Q v : sym_on 6 W -> inverse_of 6 W Q -> let y := fun a => sumn 6 (fun c => Q a c * v c) in quad 6 W y y = quad 6 Q v v.
Proof.
  intros Sy IV y. transitivity (sumn 6 (fun a => y a * v a)).
  - unfold quad. apply sumn_ext. intros a Ha. rewrite <- (dot_unit 6 v a Ha) at 1. rewrite !sumn_mult_l.
    transitivity (sumn 6 (fun l => y a * (W a l * sumn 6 (fun c => Q l c * v c)))). { apply sumn_ext. intros; unfold y; ring. }
    transitivity (sumn 6 (fun l => sumn 6 (fun c => y a * (W a l * Q l c * v c)))). { apply sumn_ext. intros l _. rewrite !sumn_mult_l. apply sumn_ext. intros; ring. }
    rewrite sumn_swap. apply sumn_ext. intros c Hc. rewrite Nat.eqb_sym, <- (IV a c Ha Hc), !sumn_mult_r, sumn_mult_l. apply sumn_ext. intros; ring.
  - unfold quad, y. apply sumn_ext. intros a Ha. rewrite sumn_mult_r. apply sumn_ext. intros; ring.
Qed.
