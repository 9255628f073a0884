(** Proofs for C99. *)
Require Import Reals List Arith Lia Lra Bool Sorted Permutation.
From Verif Require Import Lin LinFacts SpecGeom SO3 SE3 Nodes NodesProofs Robust Graph GraphProofs Sums Solve SpecSolve SolveIndex SolveFrame SolveSums SolveBuild SolveProofs Session SessionProofs.
From Verif Require Import Factors SpecFactors FactorsSession FrameSolve FrameSession SpecFrame SpecSolvable SolvableFactors SolvableSession MappingSession LMMapping SpecLocate Gauss DenseProofs Reorder SpecChain Chain SpecGrow Grow SpecPin.
Import ListNotations.
Local Open Scope R_scope.
Local Arguments nd : simpl never.
Local Arguments fa : simpl never.

Lemma lsum_filter {A} (f : A -> bool) l (g : A -> R) : lsum (filter f l) g = lsum l (fun a => if f a then g a else 0).
Proof. induction l as [|a l IH]; [reflexivity|]. cbn [filter]. rewrite lsum_cons. destruct (f a); rewrite ?lsum_cons, IH; ring. Qed.
Lemma seq_sorted k : forall a, StronglySorted lt (seq a k).
Proof. induction k as [|k IH]; intros a; cbn; constructor; auto. rewrite Forall_forall. intros x Ix. apply in_seq in Ix. lia. Qed.
(** a combination of the increments, as a sum over the nodes *)
Section Combined.
Variables (rob : robust_type) (cs : list pycall) (w : world).
Hypothesis (V : inv rob cs w) (O : in_order w).
Notation N := (length (nodes_of cs)).
Lemma active_filter : g_active (w_graph w) = filter (fun i => negb (is_anchor (nd w i))) (seq 0 N).
Proof.
  apply sorted_same; [apply (io_sorted _ O)|apply sorted_filter, seq_sorted|]. intros x. rewrite (own_active rob cs w x V O), filter_In, in_seq. split.
  - intros (v & E & NA). assert (Hx : (x < N)%nat) by (rewrite <- (map_length shape); apply nth_error_Some; congruence). split; [lia|]. rewrite nth_error_map in E. destruct (nth_error (nodes_of cs) x) as [[m u]|] eqn:Ex; [|discriminate]. injection E as <-. cbn in NA.
    destruct (mode_of rob cs w x m u V Ex) as (l & Gl & Ml & _). rewrite (own_loc rob cs w x V O Hx) in Gl. injection Gl as <-. apply negb_true_iff, is_anchor_false. congruence.
  - intros [Hx NA]. destruct (nth_error (nodes_of cs) x) as [[m u]|] eqn:Ex; [|apply nth_error_None in Ex; lia]. exists (m, kind_of u). rewrite nth_error_map, Ex. split; [reflexivity|]. cbn.
    destruct (mode_of rob cs w x m u V Ex) as (l & Gl & Ml & _). rewrite (own_loc rob cs w x V O ltac:(lia)) in Gl. injection Gl as <-. apply negb_true_iff, is_anchor_false in NA. congruence.
Qed.
Lemma combined g v x : combination w g v -> dot (g_stateDim (w_graph w)) x v = sumn N (fun i => sumn (nval_dim (state_of w i)) (fun k => inc_of w x i k * g i k)).
Proof.
  intros K. pose proof (gd_wf _ (iv_good _ _ _ V)) as Wf. set (gl := fun l k => g (n_id (nd w l)) k).
  assert (Ev : forall p, (p < g_stateDim (w_graph w))%nat -> v p = pack (ndim w) (g_active (w_graph w)) gl p).
  { intros p Hp. rewrite (wf_state _ Wf) in Hp. destruct (pack_split _ _ _ Hp) as (m & l & k & Hm & Hk & ->). rewrite (pack_at _ _ _ m l k Hm Hk). apply (K m l k Hm Hk). }
  transitivity (dot (lsumn (map (ndim w) (g_active (w_graph w)))) (pack (ndim w) (g_active (w_graph w)) (increments w x)) (pack (ndim w) (g_active (w_graph w)) gl)).
  { rewrite <- (wf_state _ Wf). unfold dot. apply sumn_ext; intros p Hp. rewrite (pack_of_increments w x Wf p Hp), (Ev p Hp). reflexivity. }
  rewrite pack_dot. rewrite active_filter, lsum_filter, lsum_seq. apply sumn_ext; intros i Hi. pose proof (own_loc rob cs w i V O Hi) as Gi. rewrite (own_dim rob cs w i V O Hi).
  assert (Id : n_id (nd w i) = i) by (apply (gd_ids _ (iv_good _ _ _ V) i i Gi)). unfold inc_of. rewrite Gi. destruct (is_anchor (nd w i)) eqn:An; cbn [negb].
  - symmetry. apply sumn_zero; intros k _. unfold increments. rewrite An. ring.
  - apply sumn_ext; intros k _. unfold gl. rewrite Id. reflexivity.
Qed.
End Combined.
Section Pinned.
Variables (rob : robust_type) (cs cs' : list pycall) (w w' : world).
Hypothesis (V : inv rob cs w) (V' : inv rob cs' w') (O : in_order w) (O' : in_order w') (G : pinned cs cs').
Hypothesis (P : Forall call_info cs) (P' : Forall call_info cs') (NR : rob <> RANSAC).
Hypothesis (Same : forall i, (i < length (nodes_of cs))%nat -> state_of w' i = state_of w i).
Notation N := (length (nodes_of cs)).
Lemma pinned_len : length (nodes_of cs') = N.
Proof. destruct G as [A _]. clear - A. induction A; cbn; congruence. Qed.
Lemma pinned_mode i : (i < N)%nat -> is_anchor (nd w i) = true -> is_anchor (nd w' i) = true.
Proof.
  intros Hi A. apply is_anchor_true in A. apply is_anchor_true. destruct (nth_error (nodes_of cs) i) as [[m v]|] eqn:E; [|apply nth_error_None in E; lia]. destruct (nth_error (nodes_of cs') i) as [[m' v']|] eqn:E'; [|apply nth_error_None in E'; rewrite pinned_len in E'; lia].
  destruct (mode_of rob cs w i m v V E) as (l & Gl & Ml & _). rewrite (own_loc rob cs w i V O Hi) in Gl. injection Gl as <-. destruct (mode_of rob cs' w' i m' v' V' E') as (l & Gl & Ml' & _). rewrite (own_loc rob cs' w' i V' O' ltac:(rewrite pinned_len; lia)) in Gl. injection Gl as <-.
  assert (Q : m' = m \/ m' = ANCHOR). { destruct G as [F _]. clear - F E E'. revert i E E'. induction F as [|a b la lb [_ H] F IH]; intros [|i] E E'; cbn in E, E'; try discriminate; [injection E as ->; injection E' as ->; exact H|eauto]. }
  destruct Q; congruence.
Qed.
(** the motions of the freer graph that leave the fixed nodes alone *)
Definition loosen (x : nat -> R) : nat -> R := pack (ndim w) (g_active (w_graph w)) (fun l => inc_of w' x l).
Lemma loosen_inc x i k : (i < N)%nat -> (k < nval_dim (state_of w i))%nat -> inc_of w (loosen x) i k = inc_of w' x i k.
Proof.
  intros Hi Hk. pose proof (gd_wf _ (iv_good _ _ _ V)) as Wf. unfold inc_of at 1. rewrite (own_loc rob cs w i V O Hi). destruct (is_anchor (nd w i)) eqn:An.
  - unfold inc_of. rewrite (own_loc rob cs' w' i V' O' ltac:(rewrite pinned_len; lia)). unfold increments. rewrite An, (pinned_mode i Hi An). reflexivity.
  - assert (Ia : In i (g_active (w_graph w))) by (rewrite (active_filter rob cs w V O); apply filter_In; split; [apply in_seq; lia|rewrite An; reflexivity]). apply In_nth_error in Ia. destruct Ia as [m Hm].
    rewrite (increments_at w _ m i k Wf Hm). unfold loosen, col. apply pack_at; auto. rewrite (own_dim rob cs w i V O Hi). exact Hk.
Qed.
Lemma loosen_form x y : gn_form w (loosen x) (loosen y) = gn_form w' x y.
Proof.
  rewrite (facts_form rob cs w V P NR), (facts_form rob cs' w' V' P' NR). destruct G as [_ Pm]. rewrite (facts_measures cs'), (lsum_perm _ _ _ (Permutation_flat_map facts Pm)), <- facts_measures. apply lsum_ext. intros [[cl ids] W] I.
  pose proof (facts_bound rob cs w cl ids W V I) as B. rewrite Forall_forall in B. apply f_f_ext; cbn [fst snd].
  - intros j J. symmetry. apply Same, B, J.
  - intros j k J Hk. apply loosen_inc; auto.
  - intros j k J Hk. apply loosen_inc; auto.
Qed.
Lemma loosen_dot g v v' x : combination w g v -> combination w' g v' -> dot (g_stateDim (w_graph w)) (loosen x) v = dot (g_stateDim (w_graph w')) x v'.
Proof.
  intros K K'. rewrite (combined rob cs w V O g v (loosen x) K), (combined rob cs' w' V' O' g v' x K'). rewrite pinned_len. apply sumn_ext; intros i Hi. rewrite (Same i Hi). apply sumn_ext; intros k Hk. rewrite (loosen_inc x i k Hi Hk). reflexivity.
Qed.
Lemma loosen_zero x : (forall p, (p < g_stateDim (w_graph w))%nat -> loosen x p = 0) -> forall p, (p < g_stateDim (w_graph w'))%nat -> x p = 0.
Proof.
  intros Z. apply (same_incr w' x (fun _ => 0) (gd_wf _ (iv_good _ _ _ V'))). intros m l k Hm Hk. replace (increments w' (fun _ => 0) l k) with 0 by (unfold increments; destruct (is_anchor _); reflexivity).
  assert (Il : In l (g_active (w_graph w'))) by (eapply nth_error_In; eauto). rewrite (active_filter rob cs' w' V' O') in Il. apply filter_In in Il. destruct Il as [Il _]. apply in_seq in Il. rewrite pinned_len in Il. assert (Hl : (l < N)%nat) by lia.
  assert (Hk' : (k < nval_dim (state_of w l))%nat). { rewrite <- (Same l Hl), <- (own_dim rob cs' w' l V' O' ltac:(rewrite pinned_len; lia)). exact Hk. }
  transitivity (inc_of w' x l k). { unfold inc_of. rewrite (own_loc rob cs' w' l V' O' ltac:(rewrite pinned_len; lia)). reflexivity. }
  rewrite <- (loosen_inc x l k Hl Hk'). unfold inc_of. rewrite (own_loc rob cs w l V O Hl). destruct (is_anchor (nd w l)) eqn:An. { unfold increments. rewrite An. reflexivity. }
  pose proof (gd_wf _ (iv_good _ _ _ V)) as Wf. assert (Ia : In l (g_active (w_graph w))) by (rewrite (active_filter rob cs w V O); apply filter_In; split; [apply in_seq; lia|rewrite An; reflexivity]). apply In_nth_error in Ia. destruct Ia as [a Ha].
  rewrite (increments_at w _ a l k Wf Ha). apply Z. rewrite (wf_state _ Wf). unfold col. rewrite <- (own_dim rob cs w l V O Hl) in Hk'. clear - Ha Hk'. revert a Ha. generalize (g_active (w_graph w)). intros s. induction s as [|b s IH]; intros [|a] Ha; cbn in Ha; try discriminate.
  - injection Ha as ->. cbn. lia.
  - specialize (IH a Ha). pose proof (eq_refl : before (ndim w) (b :: s) (S a) = (ndim w b + before (ndim w) s a)%nat) as Q. cbn [map lsumn]. lia.
Qed.
End Pinned.
