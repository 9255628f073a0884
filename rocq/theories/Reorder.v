(** Sessions with the same nodes and the same cost solve alike (C84). *)
Require Import Reals List Arith Lia Lra Bool Permutation.
From Verif Require Import Lin SO3 LinFacts SpecGeom Nodes Robust Graph GraphProofs Sums Solve SpecSolve SolveIndex SolveFrame SolveSums SolveBuild SolveProofs Session SessionProofs.
From Verif Require Import Factors SpecFactors FactorsSession SpecFrame FrameFactors FrameSolve SpecSolvable SpecMapping SpecReorder SolvableSession DenseProofs MappingSession LMMapping.
Import ListNotations.
Local Open Scope R_scope.
Local Arguments nd : simpl never.
Local Arguments fa : simpl never.

(** ** cost of a factor in terms of node ids *)
Definition fact : Type := (fclass * list nat * (nat -> nat -> R))%type.
Definition f_jd (st : nat -> nval) (d : nat -> nat -> R) (cl : fclass) (ids : list nat) (i : nat) : R := row_dir (fc_jac cl (map st ids) i) 0 (map st ids) (map d ids).
Definition f_c (st : nat -> nval) (f : fact) : R := let '(cl, ids, W) := f in 1 / 2 * quad (fc_dim cl) W (fc_res cl (map st ids)) (fc_res cl (map st ids)).
Definition f_w (rob : robust_type) (st : nat -> nval) (f : fact) : R := robust_eval rob 0 (sqrt (f_c st f)).
Definition f_g (rob : robust_type) (st : nat -> nval) (d : nat -> nat -> R) (f : fact) : R :=
  f_w rob st f * let '(cl, ids, W) := f in quad (fc_dim cl) W (f_jd st d cl ids) (fc_res cl (map st ids)).
Definition f_f (rob : robust_type) (st : nat -> nval) (d e : nat -> nat -> R) (f : fact) : R :=
  f_w rob st f * let '(cl, ids, W) := f in quad (fc_dim cl) W (f_jd st d cl ids) (f_jd st e cl ids).
Section Facts.
Variables (rob : robust_type) (cs : list pycall) (w : world).
Hypothesis (V : inv rob cs w) (P : Forall call_info cs) (NR : rob <> RANSAC).
Lemma fact_cost k f : nth_error (flat_map facts cs) k = Some f -> fchi2 w k = f_c (state_of w) f /\ weight_at w k = f_w rob (state_of w) f.
Proof using V NR.
  intros E. destruct f as [[cl ids] W]. destruct (tk_cls _ _ _ (iv_tracks _ _ _ V) k cl ids W E) as (A & B & C & F).
  assert (Q : fchi2 w k = f_c (state_of w) (cl, ids, W)) by (unfold fchi2, fdim, res_at, states_of, f_c; rewrite A, B, C, (get_nodes_states _ _ _ F); reflexivity).
  split; auto. assert (Hk : (k < length (flat_map facts cs))%nat) by (apply nth_error_Some; congruence). unfold weight_at, f_w. rewrite Q, (ho_rob _ _ _ _ (iv_holds _ _ _ V) k Hk). destruct rob; try reflexivity. congruence.
Qed.
Lemma facts_chi2 : chi2_of w = lsum (flat_map facts cs) (f_c (state_of w)).
Proof using V NR. unfold chi2_of. rewrite (tk_fac _ _ _ (iv_tracks _ _ _ V)). apply lsum_seq_list. intros k f E. cbn [Nat.add]. apply (fact_cost k f E). Qed.
Lemma facts_rhs x : gn_rhs w x = lsum (flat_map facts cs) (f_g rob (state_of w) (inc_of w x)).
Proof using V P NR.
  destruct (inv_infos rob cs w V P NR) as (Sy & _). unfold gn_rhs. rewrite (tk_fac _ _ _ (iv_tracks _ _ _ V)). apply lsum_seq_list. intros k f E. cbn [Nat.add]. destruct (fact_cost k f E) as [_ ->]. destruct f as [[cl ids] W].
  destruct (tk_cls _ _ _ (iv_tracks _ _ _ V) k cl ids W E) as (A & B & C & F). unfold f_g. f_equal. destruct (jac_times_class rob cs w k cl ids W x 0 V E) as [Ik _]. rewrite quad_sym by (apply Sy; auto). unfold fdim, res_at, states_of. rewrite A, B, C, (get_nodes_states _ _ _ F).
  apply quad_ext; auto. intros i _. destruct (jac_times_class rob cs w k cl ids W x i V E) as [_ ->]. reflexivity.
Qed.
Lemma facts_form x y : gn_form w x y = lsum (flat_map facts cs) (f_f rob (state_of w) (inc_of w x) (inc_of w y)).
Proof using V P NR.
  destruct (inv_infos rob cs w V P NR) as (Sy & _). unfold gn_form. rewrite (tk_fac _ _ _ (iv_tracks _ _ _ V)). apply lsum_seq_list. intros k f E. cbn [Nat.add]. destruct (fact_cost k f E) as [_ ->]. destruct f as [[cl ids] W].
  destruct (tk_cls _ _ _ (iv_tracks _ _ _ V) k cl ids W E) as (A & B & C & F). unfold f_f. f_equal. destruct (jac_times_class rob cs w k cl ids W x 0 V E) as [Ik _]. rewrite quad_sym by (apply Sy; auto). unfold fdim. rewrite A, C.
  apply quad_ext; intros i _; [destruct (jac_times_class rob cs w k cl ids W x i V E) as [_ ->]|destruct (jac_times_class rob cs w k cl ids W y i V E) as [_ ->]]; reflexivity.
Qed.
(** *** the active nodes by id *)
Definition act_ids (u : world) : list nat := map (fun l => n_id (nd u l)) (g_active (w_graph u)).
Lemma act_in l : In l (g_active (w_graph w)) -> exists i, get_node w i = Some l /\ n_id (nd w l) = i /\ (i < length (nodes_of cs))%nat /\ ndim w l = nval_dim (state_of w i).
Proof using V.
  intros I. destruct (In_nth_error _ _ I) as [m M]. destruct (active_id rob cs w m l V M) as (i & G & Hi). exists i. split; auto. destruct (gd_ids _ (iv_good _ _ _ V) i l G) as [Ll Id]. split; auto. split; auto.
  unfold ndim. destruct (gd_kind _ (iv_good _ _ _ V) l Ll) as [-> _]. unfold state_of. rewrite G. reflexivity.
Qed.
Lemma act_dot x y : dot (g_stateDim (w_graph w)) x y = lsum (act_ids w) (fun i => sumn (nval_dim (state_of w i)) (fun k => inc_of w x i k * inc_of w y i k)).
Proof using V.
  pose proof (gd_wf _ (iv_good _ _ _ V)) as Wf. rewrite <- (dot_below _ _ _ _ _ (pack_of_increments w x Wf) (pack_of_increments w y Wf)), (wf_state _ Wf), pack_dot. unfold act_ids. rewrite lsum_map. apply lsum_ext.
  intros l I. destruct (act_in l I) as (i & G & -> & _ & D). rewrite D. unfold inc_of. rewrite G. reflexivity.
Qed.
Lemma act_iff i : In i (act_ids w) <-> exists m v, nth_error (nodes_of cs) i = Some (m, v) /\ m <> ANCHOR.
Proof using V.
  unfold act_ids. rewrite in_map_iff. split.
  - intros (l & Id & I). destruct (act_in l I) as (j & G & Ij & Hj & _). assert (j = i) as -> by congruence. destruct (nth_error (nodes_of cs) i) as [[m v]|] eqn:E; [|apply nth_error_None in E; lia]. exists m, v. split; auto.
    destruct (mode_of rob cs w i m v V E) as (l' & G' & M & _). assert (l' = l) as -> by congruence. intros ->. destruct (wf_active _ (gd_wf _ (iv_good _ _ _ V)) l I) as [_ Q]. congruence.
  - intros (m & v & E & NA). destruct (mode_of rob cs w i m v V E) as (l & G & M & Id & _). exists l. split; auto. destruct (standard_active rob cs w i m v l V E NA G) as [a A]. eapply nth_error_In; eauto.
Qed.
(** vectors with the same increments *)
Lemma inc_below x y : (forall i k, (i < length (nodes_of cs))%nat -> (k < nval_dim (state_of w i))%nat -> inc_of w x i k = inc_of w y i k) -> same_below (g_stateDim (w_graph w)) x y.
Proof using V.
  intros H. apply same_incr; [apply (gd_wf _ (iv_good _ _ _ V))|]. intros m l k M K. destruct (act_in l (nth_error_In _ _ M)) as (i & G & _ & Hi & D). specialize (H i k Hi). unfold inc_of in H. rewrite G in H. apply H. rewrite <- D. exact K.
Qed.
Lemma below_inc x y i k : same_below (g_stateDim (w_graph w)) x y -> (i < length (nodes_of cs))%nat -> (k < nval_dim (state_of w i))%nat -> inc_of w x i k = inc_of w y i k.
Proof using V.
  intros H Hi Hk. destruct (nth_error (nodes_of cs) i) as [[m v]|] eqn:E; [|apply nth_error_None in E; lia]. destruct (mode_of rob cs w i m v V E) as (l & G & M & Id & Es & K).
  unfold inc_of. rewrite G. destruct m; [| unfold increments, is_anchor; rewrite M; reflexivity |];
  (destruct (standard_active rob cs w i _ v l V E ltac:(discriminate) G) as [a A]; apply (below_incr w x y a l k (gd_wf _ (iv_good _ _ _ V)) H A); destruct (act_in l (nth_error_In _ _ A)) as (i' & _ & Id' & _ & D); rewrite D, <- Id', Id; exact Hk).
Qed.
End Facts.

(** ** two sessions with the same nodes, numbered differently *)
Record paired (rob : robust_type) (cs cs' : list pycall) (p q : nat -> nat) (w w' : world) : Prop := {
  pr_inv : inv rob cs w; pr_inv' : inv rob cs' w'; pr_len : length (nodes_of cs') = length (nodes_of cs);
  pr_p : forall i, (i < length (nodes_of cs))%nat -> (p i < length (nodes_of cs))%nat /\ q (p i) = i;
  pr_q : forall j, (j < length (nodes_of cs))%nat -> (q j < length (nodes_of cs))%nat /\ p (q j) = j;
  pr_mode : forall i m v, nth_error (nodes_of cs) i = Some (m, v) -> exists v', nth_error (nodes_of cs') (p i) = Some (m, v');
  pr_state : forall i, (i < length (nodes_of cs))%nat -> state_of w' (p i) = state_of w i }.
Lemma paired_sym rob cs cs' p q w w' : paired rob cs cs' p q w w' -> paired rob cs' cs q p w' w.
Proof.
  intros [V V' Le Pp Pq Mo St]. constructor; auto; rewrite ?Le; auto.
  - intros j m v E. assert (Hj : (j < length (nodes_of cs))%nat) by (rewrite <- Le; apply nth_error_Some; congruence). destruct (Pq j Hj) as [Hq Ej]. destruct (nth_error (nodes_of cs) (q j)) as [[m0 v0]|] eqn:E0; [|apply nth_error_None in E0; lia].
    destruct (Mo _ _ _ E0) as [v' E']. rewrite Ej, E in E'. injection E' as -> _. eauto.
  - intros j Hj. destruct (Pq j Hj) as [Hq Ej]. rewrite <- Ej at 2. symmetry. apply St; auto.
Qed.
(** the increments of one as a vector of the other *)
Definition carry (q : nat -> nat) (w w' : world) (x : nat -> R) : nat -> R := pack (ndim w') (g_active (w_graph w')) (fun l => inc_of w x (q (n_id (nd w' l)))).
Section Paired.
Variables (rob : robust_type) (cs cs' : list pycall) (p q : nat -> nat) (w w' : world).
Hypothesis H : paired rob cs cs' p q w w'.
Let V := pr_inv _ _ _ _ _ _ _ H.
Let V' := pr_inv' _ _ _ _ _ _ _ H.
Lemma carry_inc x i k : (i < length (nodes_of cs))%nat -> (k < nval_dim (state_of w i))%nat -> inc_of w' (carry q w w' x) (p i) k = inc_of w x i k.
Proof using H.
  intros Hi Hk. destruct (pr_p _ _ _ _ _ _ _ H i Hi) as [Hp Eq]. destruct (nth_error (nodes_of cs) i) as [[m v]|] eqn:E; [|apply nth_error_None in E; lia]. destruct (pr_mode _ _ _ _ _ _ _ H i m v E) as [v' E'].
  destruct (mode_of rob cs' w' (p i) m v' V' E') as (l' & G' & M' & Id' & Es' & _). 
  assert (A : m = ANCHOR -> inc_of w' (carry q w w' x) (p i) k = inc_of w x i k) by (intros ->; rewrite (anchor_inc rob cs w i v x k V E), (anchor_inc rob cs' w' (p i) v' _ k V' E'); reflexivity).
  destruct m; [|auto|];
  (unfold inc_of at 1; rewrite G'; destruct (standard_active rob cs' w' (p i) _ v' l' V' E' ltac:(discriminate) G') as [a Ha]; rewrite (increments_at w' _ a l' k (gd_wf _ (iv_good _ _ _ V')) Ha); unfold carry, col;
   destruct (act_in rob cs' w' V' l' (nth_error_In _ _ Ha)) as (i' & _ & Ii' & _ & D); rewrite (pack_at _ _ _ a l' k Ha); [rewrite Id', Eq; reflexivity|]; rewrite D; assert (i' = p i) as -> by congruence; rewrite (pr_state _ _ _ _ _ _ _ H i Hi); exact Hk).
Qed.
Lemma act_perm : Permutation (act_ids w') (map p (act_ids w)).
Proof using H.
  assert (ND : NoDup (act_ids w)) by apply (wf_ids _ (gd_wf _ (iv_good _ _ _ V))). assert (ND' : NoDup (act_ids w')) by apply (wf_ids _ (gd_wf _ (iv_good _ _ _ V'))).
  assert (Lt : forall i, In i (act_ids w) -> (i < length (nodes_of cs))%nat) by (intros i I; apply (act_iff rob cs w V) in I; destruct I as (m & v & E & _); apply nth_error_Some; congruence).
  apply NoDup_Permutation; auto.
  - clear - ND Lt H. induction ND as [|i l N ND IH]; cbn; constructor.
    + intros I. apply in_map_iff in I. destruct I as (j & E & Ij). apply N. destruct (pr_p _ _ _ _ _ _ _ H i (Lt i ltac:(left; auto))) as [_ Qi]. destruct (pr_p _ _ _ _ _ _ _ H j (Lt j ltac:(right; auto))) as [_ Qj]. congruence.
    + apply IH. intros j Ij. apply Lt. right; auto.
  - intros j. rewrite in_map_iff. split.
    + intros I. apply (act_iff rob cs' w' V') in I. destruct I as (m & v & E & NA). assert (Hj : (j < length (nodes_of cs))%nat) by (rewrite <- (pr_len _ _ _ _ _ _ _ H); apply nth_error_Some; congruence). destruct (pr_q _ _ _ _ _ _ _ H j Hj) as [_ Ej]. exists (q j). split; auto.
      apply (act_iff rob cs w V). destruct (pr_mode _ _ _ _ _ _ _ (paired_sym _ _ _ _ _ _ _ H) j m v E) as [v' E']. eauto.
    + intros (i & <- & I). apply (act_iff rob cs w V) in I. destruct I as (m & v & E & NA). destruct (pr_mode _ _ _ _ _ _ _ H i m v E) as [v' E']. apply (act_iff rob cs' w' V'). eauto.
Qed.
Lemma act_lt i : In i (act_ids w) -> (i < length (nodes_of cs))%nat.
Proof using H. intros I. apply (act_iff rob cs w V) in I. destruct I as (m & v & E & _). apply nth_error_Some. congruence. Qed.
End Paired.

(** ** factors that cost the same *)
Definition agree (p : nat -> nat) (n : nat) (st st' : nat -> nval) : Prop := forall i, (i < n)%nat -> st' (p i) = st i.
Definition agree_d (p : nat -> nat) (n : nat) (st : nat -> nval) (d d' : nat -> nat -> R) : Prop := forall i k, (i < n)%nat -> (k < nval_dim (st i))%nat -> d' (p i) k = d i k.
Definition same_cost (rob : robust_type) (p : nat -> nat) (n : nat) (fs fs' : list fact) : Prop :=
  forall st st', agree p n st st' -> lsum fs' (f_c st') = lsum fs (f_c st) /\
  forall d d', agree_d p n st d d' -> lsum fs' (f_g rob st' d') = lsum fs (f_g rob st d) /\
  forall e e', agree_d p n st e e' -> lsum fs' (f_f rob st' d' e') = lsum fs (f_f rob st d e).
Section Alike.
Variables (p : nat -> nat) (n : nat) (st st' : nat -> nval).
Hypothesis A : agree p n st st'.
(** the factors have the same dimension, information, residual and directional derivatives *)
Definition alike (f f' : fact) : Prop :=
  let '(cl, ids, W) := f in let '(cl', ids', W') := f' in fc_dim cl' = fc_dim cl /\ W' = W /\
  (forall i, (i < fc_dim cl)%nat -> fc_res cl' (map st' ids') i = fc_res cl (map st ids) i) /\
  forall d d', agree_d p n st d d' -> forall i, (i < fc_dim cl)%nat -> f_jd st' d' cl' ids' i = f_jd st d cl ids i.
Lemma alike_costs rob f f' : alike f f' -> f_c st' f' = f_c st f /\ forall d d', agree_d p n st d d' -> f_g rob st' d' f' = f_g rob st d f /\ forall e e', agree_d p n st e e' -> f_f rob st' d' e' f' = f_f rob st d e f.
Proof.
  destruct f as [[cl ids] W], f' as [[cl' ids'] W']. intros (D & -> & Rs & J).
  assert (C : f_c st' (cl', ids', W) = f_c st (cl, ids, W)) by (unfold f_c; rewrite D; f_equal; apply quad_ext; auto).
  split; auto. intros d d' Ad. split; [|intros e e' Ae]; unfold f_g, f_f, f_w; rewrite C, D; f_equal; apply quad_ext; auto.
Qed.
Lemma same_states ids : (forall i, In i ids -> (i < n)%nat) -> map st' (map p ids) = map st ids.
Proof using A. intros H. rewrite map_map. apply map_ext_in. intros i I. apply A, H, I. Qed.
Lemma same_rows row d d' ids : (forall i, In i ids -> (i < n)%nat) -> agree_d p n st d d' -> forall off, row_dir row off (map st ids) (map d' (map p ids)) = row_dir row off (map st ids) (map d ids).
Proof using.
  intros H Ad. induction ids as [|i ids IH]; intros off; cbn; auto. rewrite IH by (intros; apply H; cbn; auto). f_equal. apply sumn_ext. intros k K. rewrite Ad; auto. apply H. left; auto.
Qed.
Lemma alike_class cl ids W : (forall i, In i ids -> (i < n)%nat) -> alike (cl, ids, W) (cl, map p ids, W).
Proof using A.
  intros H. split; auto. split; auto. split. { intros i _. rewrite same_states; auto. } intros d d' Ad i _. unfold f_jd. rewrite same_states by auto. apply same_rows; auto.
Qed.
Ltac swapped := intros Hi Hj; split; [reflexivity|]; split; [reflexivity|]; pose proof (A _ Hi) as Si; pose proof (A _ Hj) as Sj; split;
  [intros k Hk; cbn [map fc_res c_landmark3d c_landmark2d c_plane4d]; rewrite Si, Sj; destruct (st _), (st _); reflexivity
  |intros d d' Ad k Hk; pose proof (fun k => Ad _ k Hi) as Di; pose proof (fun k => Ad _ k Hj) as Dj; unfold f_jd; cbn [map fc_jac fc_dim c_landmark3d c_landmark2d c_plane4d] in *; rewrite Si, Sj; revert Di Dj;
   destruct (st _), (st _); intros Di Dj; cbn [row_dir nval_dim sumn] in *; try lra;
   try (unfold jac_landmark2d; cbv zeta; destruct (Rltb _ _)); do 4 (destruct k as [|k]; [cbn; rewrite ?Di, ?Dj by lia; ring|try lia])].
Lemma swap_l3 obs i j W : (i < n)%nat -> (j < n)%nat -> alike (c_landmark3d obs false, [i; j], W) (c_landmark3d obs true, [p j; p i], W).
Proof using A. swapped. Qed.
Lemma swap_l3' obs i j W : (i < n)%nat -> (j < n)%nat -> alike (c_landmark3d obs true, [j; i], W) (c_landmark3d obs false, [p i; p j], W).
Proof using A. swapped. Qed.
Lemma swap_l2 r b u i j W : (i < n)%nat -> (j < n)%nat -> alike (c_landmark2d r b false u, [i; j], W) (c_landmark2d r b true u, [p j; p i], W).
Proof using A. swapped. Qed.
Lemma swap_l2' r b u i j W : (i < n)%nat -> (j < n)%nat -> alike (c_landmark2d r b true u, [j; i], W) (c_landmark2d r b false u, [p i; p j], W).
Proof using A. swapped. Qed.
Lemma swap_pl obs i j W : (i < n)%nat -> (j < n)%nat -> alike (c_plane4d obs false, [i; j], W) (c_plane4d obs true, [p j; p i], W).
Proof using A. swapped. Qed.
Lemma swap_pl' obs i j W : (i < n)%nat -> (j < n)%nat -> alike (c_plane4d obs true, [j; i], W) (c_plane4d obs false, [p i; p j], W).
Proof using A. swapped. Qed.
Lemma alike_call c cl ids W : order_kept p c -> call_factor c = Some (cl, ids, W) -> (forall i, In i ids -> (i < n)%nat) ->
  exists f', call_factor (rename p c) = Some f' /\ alike (cl, ids, W) f'.
Proof using A.
  intros O E B. unfold call_factor in *. destruct c; cbn [rename pycall_op order_kept] in *; try discriminate;
  try (injection E as <- <- <-; eexists; split; [reflexivity|]; match goal with |- alike (?cl, ?ids, ?W) _ => apply (alike_class cl ids W B) end);
  try match type of O with (?i < ?j <-> p ?i < p ?j)%nat => assert (Q : (p i <? p j)%nat = (i <? j)%nat) by (destruct (Nat.ltb_spec i j), (Nat.ltb_spec (p i) (p j)); auto; lia); rewrite Q;
    destruct (i <? j)%nat; injection E as <- <- <-; eexists; (split; [reflexivity|]); match goal with |- alike (?cl, ?ids, ?W) _ => apply (alike_class cl ids W B) end end;
  match type of E with context [(?i <? ?j)%nat] => destruct (i <? j)%nat; injection E as <- <- <-; pose proof (B i ltac:(cbn; auto)) as Bi; pose proof (B j ltac:(cbn; auto)) as Bj; destruct (p i <? p j)%nat; eexists; (split; [reflexivity|]) end;
  first [ match goal with |- alike (?cl, ?ids, ?W) _ => apply (alike_class cl ids W B) end | apply swap_l3; auto | apply swap_l3'; auto | apply swap_l2; auto | apply swap_l2'; auto | apply swap_pl; auto | apply swap_pl'; auto ].
Qed.
End Alike.
