(** What the solver's operations change in the graph, and what they leave alone. *)
Require Import Reals List Arith Lia Lra Bool.
From Verif Require Import Lin SO3 SE3 Angle AngleProofs Nodes NodesProofs Robust Graph GraphProofs Sums Solve SpecSolve SolveIndex.
Import ListNotations.
Local Open Scope nat_scope.

Lemma nth_upd {A} (l : list A) i f j d : nth j (upd l i f) d =
  if andb (j =? i) (j <? length l) then f (nth j l d) else nth j l d.
Proof.
  destruct (Nat.ltb_spec j (length l)) as [L|L].
  - apply nth_error_nth. rewrite upd_nth. rewrite (nth_error_nth' l d L). destruct (j =? i); reflexivity.
  - rewrite andb_false_r. rewrite !nth_overflow; auto. rewrite upd_length; auto.
Qed.
Lemma nd_on_node w l g j : nd (on_node w l g) j = if andb (j =? l) (j <? length (w_nodes w)) then g (nd w j) else nd w j.
Proof. apply nth_upd. Qed.
Lemma fa_on_factor w l g j : fa (on_factor w l g) j = if andb (j =? l) (j <? length (w_factors w)) then g (fa w j) else fa w j.
Proof. apply nth_upd. Qed.
Lemma nd_same w w' l : w_nodes w = w_nodes w' -> nd w l = nd w' l.
Proof. unfold nd. intros ->. reflexivity. Qed.
Lemma states_same w w' f : w_nodes w = w_nodes w' -> states_of w f = states_of w' f.
Proof. unfold states_of, nd. intros ->. reflexivity. Qed.

Definition mem (l : loc) (s : list loc) : bool := existsb (Nat.eqb l) s.
Lemma mem_In l s : mem l s = true <-> In l s.
Proof.
  unfold mem. rewrite existsb_exists. split.
  - intros (x & I & E). apply Nat.eqb_eq in E. congruence.
  - intros I. exists l. split; auto. apply Nat.eqb_refl.
Qed.
(** folding an idempotent change over a list of locations *)
Lemma fold_on_factor (g : world -> factor -> factor) :
  (forall w w' f, w_nodes w = w_nodes w' -> g w f = g w' f) -> (forall w f, g w (g w f) = g w f) ->
  forall ls w, let w' := fold_left (fun w l => on_factor w l (g w)) ls w in
  w_nodes w' = w_nodes w /\ w_graph w' = w_graph w /\ length (w_factors w') = length (w_factors w) /\
  forall l, fa w' l = if andb (mem l ls) (l <? length (w_factors w)) then g w (fa w l) else fa w l.
Proof.
  intros H1 H2. induction ls as [|a ls IH]; intros w; cbn [fold_left]; [repeat split; auto|].
  destruct (IH (on_factor w a (g w))) as (A & B & C & D).
  assert (LE : length (w_factors (on_factor w a (g w))) = length (w_factors w)) by (cbn; apply upd_length).
  rewrite LE in *. repeat split; auto. intros l. rewrite D, fa_on_factor.
  rewrite (H1 (on_factor w a (g w)) w) by reflexivity.
  change (mem l (a :: ls)) with (orb (l =? a) (mem l ls)). destruct (Nat.eqb_spec l a) as [->|N]; cbn [orb andb].
  - destruct (a <? length (w_factors w)); rewrite ?andb_false_r; auto. rewrite andb_true_r. destruct (mem a ls); auto.
  - destruct (mem l ls && (l <? length (w_factors w))); auto.
Qed.
Lemma fold_on_node (g : node -> node) : (forall n, g (g n) = g n) ->
  forall ls w, let w' := fold_left (fun w l => on_node w l g) ls w in
  w_factors w' = w_factors w /\ w_graph w' = w_graph w /\ length (w_nodes w') = length (w_nodes w) /\
  forall l, nd w' l = if andb (mem l ls) (l <? length (w_nodes w)) then g (nd w l) else nd w l.
Proof.
  intros H2. induction ls as [|a ls IH]; intros w; cbn [fold_left]; [repeat split; auto|].
  destruct (IH (on_node w a g)) as (A & B & C & D).
  assert (LE : length (w_nodes (on_node w a g)) = length (w_nodes w)) by (cbn; apply upd_length).
  rewrite LE in *. repeat split; auto. intros l. rewrite D, nd_on_node.
  change (mem l (a :: ls)) with (orb (l =? a) (mem l ls)). destruct (Nat.eqb_spec l a) as [->|N]; cbn [orb andb].
  - destruct (a <? length (w_nodes w)); rewrite ?andb_false_r; auto. rewrite andb_true_r. destruct (mem a ls); auto.
  - destruct (mem l ls && (l <? length (w_nodes w))); auto.
Qed.

(** ** what is fixed *)
Record skel (w w' : world) : Prop := {
  sk_graph : w_graph w' = w_graph w;
  sk_nlen : length (w_nodes w') = length (w_nodes w);
  sk_flen : length (w_factors w') = length (w_factors w);
  sk_node : forall l, n_id (nd w' l) = n_id (nd w l) /\ n_dim (nd w' l) = n_dim (nd w l) /\ n_mode (nd w' l) = n_mode (nd w l)
              /\ n_factors (nd w' l) = n_factors (nd w l);
  sk_factor : forall l, f_dim (fa w' l) = f_dim (fa w l) /\ f_nodes (fa w' l) = f_nodes (fa w l) /\ f_res (fa w' l) = f_res (fa w l) /\
     f_jac (fa w' l) = f_jac (fa w l) /\ f_info (fa w' l) = f_info (fa w l) /\ f_rob (fa w' l) = f_rob (fa w l) /\ f_id (fa w' l) = f_id (fa w l);
  sk_alldim : forall l, f_alldim (fa w' l) = f_alldim (fa w l) }.
Lemma skel_refl w : skel w w.
Proof. constructor; auto; intros; repeat split. Qed.
Lemma skel_trans a b c : skel a b -> skel b c -> skel a c.
Proof.
  intros [A1 A2 A3 A4 A5 A6] [B1 B2 B3 B4 B5 B6]. constructor; try congruence.
  - intros l. destruct (A4 l) as (?&?&?&?), (B4 l) as (?&?&?&?). repeat split; congruence.
  - intros l. destruct (A5 l) as (?&?&?&?&?&?&?), (B5 l) as (?&?&?&?&?&?&?). repeat split; congruence.
Qed.
Lemma skel_ndim w w' : skel w w' -> ndim w' = ndim w.
Proof. intros S. apply FunctionalExtensionality.functional_extensionality. intros l. apply (sk_node _ _ S). Qed.
Lemma skel_fdim w w' : skel w w' -> fdim w' = fdim w.
Proof. intros S. apply FunctionalExtensionality.functional_extensionality. intros l. apply (sk_factor _ _ S). Qed.
Lemma skel_anchor w w' n : skel w w' -> is_anchor (nd w' n) = is_anchor (nd w n).
Proof. intros S. unfold is_anchor. destruct (sk_node _ _ S n) as (_ & _ & -> & _). reflexivity. Qed.
Lemma skel_wf w w' : skel w w' -> wf w -> wf w'.
Proof.
  intros S [W1 W2 W3 W4 W5 W6 W7]. pose proof (skel_ndim _ _ S) as Dn. pose proof (skel_fdim _ _ S) as Df.
  constructor; rewrite ?(sk_graph _ _ S), ?(sk_nlen _ _ S), ?(sk_flen _ _ S), ?Dn, ?Df; auto.
  - intros l I. destruct (sk_node _ _ S l) as (_ & _ & -> & _). auto.
  - erewrite map_ext; [exact W2|]. intros l. apply (sk_node _ _ S).
  - intros l n I J. destruct (sk_node _ _ S n) as (_ & _ & -> & _). destruct (sk_factor _ _ S l) as (_ & E & _). rewrite E in J. eauto.
  - intros l I. destruct (sk_factor _ _ S l) as (_ & -> & _). erewrite filter_ext; [apply W5; auto|].
    intros n. cbn. rewrite (skel_anchor _ _ _ S). reflexivity.
Qed.
Lemma skel_col w w' : skel w w' -> col w' = col w.
Proof. intros S. unfold col. rewrite (skel_ndim _ _ S), (sk_graph _ _ S). reflexivity. Qed.
Lemma skel_row w w' : skel w w' -> row w' = row w.
Proof. intros S. unfold row. rewrite (skel_fdim _ _ S), (sk_graph _ _ S). reflexivity. Qed.

(** ** evaluation *)
Definition evalG (w : world) (f : factor) : factor :=
  let vs := states_of w f in factor_eval_chi2 (factor_eval_jac vs (factor_eval_res vs f)).
Lemma evalG_same w w' f : w_nodes w = w_nodes w' -> evalG w f = evalG w' f.
Proof. intros E. unfold evalG. rewrite (states_same w w') by auto. reflexivity. Qed.
Lemma evalG_idem w f : evalG w (evalG w f) = evalG w f.
Proof. destruct f; reflexivity. Qed.
Lemma eval_factors_spec w : let w' := eval_factors w in
  w_nodes w' = w_nodes w /\ w_graph w' = w_graph w /\ length (w_factors w') = length (w_factors w) /\
  forall l, fa w' l = if andb (mem l (g_factors (w_graph w))) (l <? length (w_factors w)) then evalG w (fa w l) else fa w l.
Proof. exact (fold_on_factor evalG evalG_same evalG_idem (g_factors (w_graph w)) w). Qed.
Lemma skel_of_factors (w w' : world) (P : loc -> bool) (g : loc -> factor -> factor) :
  w_nodes w' = w_nodes w -> w_graph w' = w_graph w -> length (w_factors w') = length (w_factors w) ->
  (forall l, fa w' l = if P l then g l (fa w l) else fa w l) ->
  (forall l f, f_dim (g l f) = f_dim f /\ f_nodes (g l f) = f_nodes f /\ f_res (g l f) = f_res f /\ f_jac (g l f) = f_jac f /\
     f_info (g l f) = f_info f /\ f_rob (g l f) = f_rob f /\ f_id (g l f) = f_id f /\ f_alldim (g l f) = f_alldim f) -> skel w w'.
Proof.
  intros A B C D E. constructor; auto. { congruence. }
  - intros l. rewrite (nd_same w' w) by auto. auto.
  - intros l. rewrite D. destruct (P l); auto 8. destruct (E l (fa w l)) as (?&?&?&?&?&?&?&?). repeat split; auto. repeat split; auto.
  - intros l. rewrite D. destruct (P l); auto. apply E.
Qed.
Lemma skel_eval w : skel w (eval_factors w).
Proof.
  destruct (eval_factors_spec w) as (A & B & C & D).
  eapply (skel_of_factors _ _ _ (fun _ f => evalG w f) A B C D). intros l f. destruct f; cbn; repeat split.
Qed.
Definition weightG (_ : world) (f : factor) : factor :=
  if Nat.eqb (f_dim f) 0 then f else factor_set_weight (robust_eval (f_rob f) (f_weight f) (sqrt (f_chi2 f))) f.
Lemma weightG_idem w f : weightG w (weightG w f) = weightG w f.
Proof. unfold weightG. destruct (Nat.eqb (f_dim f) 0) eqn:E; cbn; rewrite ?E; auto. destruct f; cbn. unfold factor_set_weight; cbn. f_equal. destruct f_rob; reflexivity. Qed.
Lemma eval_weights_spec w ls : let w' := fold_left eval_weight ls w in
  w_nodes w' = w_nodes w /\ w_graph w' = w_graph w /\ length (w_factors w') = length (w_factors w) /\
  forall l, fa w' l = if andb (mem l ls) (l <? length (w_factors w)) then weightG w (fa w l) else fa w l.
Proof. exact (fold_on_factor weightG (fun _ _ _ _ => eq_refl) weightG_idem ls w). Qed.
Lemma skel_weights w ls : skel w (fold_left eval_weight ls w).
Proof.
  destruct (eval_weights_spec w ls) as (A & B & C & D).
  eapply (skel_of_factors _ _ _ (fun _ f => weightG w f) A B C D). intros l f. unfold weightG. destruct (f_dim f =? 0); cbn; repeat split.
Qed.
Definition chi2G (w : world) (f : factor) : factor := factor_eval_chi2 (factor_eval_res (states_of w f) f).
Lemma chi2G_same w w' f : w_nodes w = w_nodes w' -> chi2G w f = chi2G w' f.
Proof. intros E. unfold chi2G. rewrite (states_same w w') by auto. reflexivity. Qed.
Lemma chi2G_idem w f : chi2G w (chi2G w f) = chi2G w f.
Proof. destruct f; reflexivity. Qed.
Lemma chi2G_val w l : f_chi2 (chi2G w (fa w l)) = fchi2 w l.
Proof. reflexivity. Qed.
Lemma evalG_val w l : f_chi2 (evalG w (fa w l)) = fchi2 w l.
Proof. reflexivity. Qed.
Definition chi2_step (flag : bool) : world * R -> loc -> world * R :=
  fun '(w, t) l => let w' := if flag then eval_factor_chi2 w l else w in (w', (t + f_chi2 (fa w' l))%R).
Lemma chi2_true_fold ls : forall w t, Forall (fun l => l < length (w_factors w)) ls ->
  fold_left (chi2_step true) ls (w, t) = (fold_left eval_factor_chi2 ls w, (t + lsum ls (fchi2 w))%R).
Proof.
  induction ls as [|a ls IH]; intros w t F. { cbn. rewrite Rplus_0_r. reflexivity. }
  inversion F as [|? ? F1 F2]; subst. cbn [fold_left].
  change (chi2_step true (w, t) a) with (eval_factor_chi2 w a, (t + f_chi2 (fa (eval_factor_chi2 w a) a))%R). rewrite IH.
  - f_equal. rewrite Rplus_assoc. f_equal. rewrite lsum_cons. f_equal.
    + unfold eval_factor_chi2. rewrite fa_on_factor, Nat.eqb_refl. apply Nat.ltb_lt in F1. rewrite F1. reflexivity.
    + apply lsum_ext. intros l _. unfold eval_factor_chi2.
      unfold fchi2, fdim, res_at. rewrite !fa_on_factor. destruct (andb _ _); reflexivity.
  - cbn. rewrite upd_length. auto.
Qed.
Lemma chi2_true w : valid_factors w -> chi2 true w = (fold_left eval_factor_chi2 (g_factors (w_graph w)) w, chi2_of w).
Proof.
  intros V. unfold chi2. change (fun '(w0, t) l => let w' := eval_factor_chi2 w0 l in (w', (t + f_chi2 (fa w' l))%R)) with (chi2_step true).
  rewrite chi2_true_fold. rewrite Rplus_0_l. reflexivity. apply Forall_forall. exact V.
Qed.
Lemma chi2_false w : chi2 false w = (w, lsum (g_factors (w_graph w)) (fun l => f_chi2 (fa w l))).
Proof.
  unfold chi2. assert (H : forall ls t, fold_left (chi2_step false) ls (w, t) = (w, (t + lsum ls (fun l => f_chi2 (fa w l)))%R)).
  { induction ls as [|a ls IH]; intros t; cbn. rewrite Rplus_0_r; auto. rewrite IH, lsum_cons. f_equal. ring. }
  rewrite <- (Rplus_0_l (lsum _ _)). apply H.
Qed.
Lemma chi2_world_spec w : let w' := fold_left eval_factor_chi2 (g_factors (w_graph w)) w in
  w_nodes w' = w_nodes w /\ w_graph w' = w_graph w /\ length (w_factors w') = length (w_factors w) /\
  forall l, fa w' l = if andb (mem l (g_factors (w_graph w))) (l <? length (w_factors w)) then chi2G w (fa w l) else fa w l.
Proof. exact (fold_on_factor chi2G chi2G_same chi2G_idem (g_factors (w_graph w)) w). Qed.
Lemma skel_chi2 w : skel w (fold_left eval_factor_chi2 (g_factors (w_graph w)) w).
Proof.
  destruct (chi2_world_spec w) as (A & B & C & D).
  eapply (skel_of_factors _ _ _ (fun _ f => chi2G w f) A B C D). intros l f. destruct f; cbn; repeat split.
Qed.
(** the numbers only depend on node states and on what is fixed *)
Lemma res_at_skel w w' l : skel w w' -> (forall n, In n (f_nodes (fa w l)) -> nst (n_data (nd w' n)) = nst (n_data (nd w n))) ->
  res_at w' l = res_at w l /\ jac_at w' l = jac_at w l /\ fchi2 w' l = fchi2 w l.
Proof.
  intros S H. destruct (sk_factor _ _ S l) as (E1 & E2 & E3 & E4 & E5 & _).
  assert (ES : states_of w' (fa w' l) = states_of w (fa w l)).
  { unfold states_of. rewrite E2. apply map_ext_in. auto. }
  assert (ER : res_at w' l = res_at w l) by (unfold res_at; rewrite ES, E3; auto).
  split; auto. split. unfold jac_at; rewrite ES, E4; auto. unfold fchi2, fdim. rewrite ER, E1, E5. reflexivity.
Qed.
Lemma chi2_of_skel w w' : skel w w' -> (forall n, nst (n_data (nd w' n)) = nst (n_data (nd w n))) -> chi2_of w' = chi2_of w.
Proof.
  intros S H. unfold chi2_of. rewrite (sk_graph _ _ S). apply lsum_ext. intros l _. apply (res_at_skel w w' l S). auto.
Qed.
Lemma chi2_of_nodes w w' : skel w w' -> w_nodes w' = w_nodes w -> chi2_of w' = chi2_of w.
Proof. intros S E. apply chi2_of_skel; auto. intros n. rewrite (nd_same w' w); auto. Qed.

(** ** nodes *)
Lemma skel_of_nodes (w w' : world) :
  w_factors w' = w_factors w -> w_graph w' = w_graph w -> length (w_nodes w') = length (w_nodes w) ->
  (forall l, exists d, nd w' l = node_set_data d (nd w l)) -> skel w w'.
Proof.
  intros A B C D. constructor; auto. { congruence. }
  - intros l. destruct (D l) as (d & ->). cbn; auto.
  - intros l. unfold fa. rewrite A. repeat split.
  - intros l. unfold fa. rewrite A. reflexivity.
Qed.
Lemma node_set_data_self n : node_set_data (n_data n) n = n.
Proof. destruct n; reflexivity. Qed.
Lemma sync_aux_spec w : let w' := sync_aux w in
  skel w w' /\ w_factors w' = w_factors w /\
  forall l, nd w' l = if andb (mem l (g_active (w_graph w))) (l <? length (w_nodes w)) then node_set_data (node_bookkeep (n_data (nd w l))) (nd w l) else nd w l.
Proof.
  destruct (fold_on_node (fun n => node_set_data (node_bookkeep (n_data n)) n) ltac:(intros []; reflexivity) (g_active (w_graph w)) w) as (A & B & C & D).
  cbv zeta. split; auto. apply skel_of_nodes; auto. intros l. unfold sync_aux. rewrite D. destruct (andb _ _); eauto.
  exists (n_data (nd w l)). rewrite node_set_data_self; auto.
Qed.
Lemma sync_state_spec w : let w' := sync_state w in
  skel w w' /\ w_factors w' = w_factors w /\
  forall l, nd w' l = if andb (mem l (g_active (w_graph w))) (l <? length (w_nodes w)) then node_set_data (node_restore (n_data (nd w l))) (nd w l) else nd w l.
Proof.
  destruct (fold_on_node (fun n => node_set_data (node_restore (n_data n)) n) ltac:(intros []; reflexivity) (g_active (w_graph w)) w) as (A & B & C & D).
  cbv zeta. split; auto. apply skel_of_nodes; auto. intros l. unfold sync_state. rewrite D. destruct (andb _ _); eauto.
  exists (n_data (nd w l)). rewrite node_set_data_self; auto.
Qed.
Definition upd_step (dx : vec) : world * nat -> loc -> world * nat :=
  fun '(w, start) l => (on_node w l (update_node dx start), start + n_dim (nd w l)).
Lemma upd_fold dx ls : forall w st, let (w', st') := fold_left (upd_step dx) ls (w, st) in
  skel w w' /\ w_factors w' = w_factors w /\ st' = st + lsumn (map (ndim w) ls) /\
  (forall l, nax (n_data (nd w' l)) = nax (n_data (nd w l))) /\
  (forall l, ~ In l ls -> nd w' l = nd w l) /\
  (NoDup ls -> forall m l, nth_error ls m = Some l -> l < length (w_nodes w) ->
     nd w' l = update_node dx (st + before (ndim w) ls m) (nd w l)) /\
  (forall l, nst (n_data (nd w' l)) = nst (n_data (nd w l)) \/ exists v d, nst (n_data (nd w' l)) = val_update v d).
Proof.
  induction ls as [|a ls IH]; intros w st; cbn.
  - split; [apply skel_refl|]. repeat split; auto; try lia. intros _ [|m] l; discriminate.
  - specialize (IH (on_node w a (update_node dx st)) (st + n_dim (nd w a))).
    destruct (fold_left (upd_step dx) ls _) as [w' st'] eqn:E. destruct IH as (A & B & C & D & F & G & I).
    assert (S1 : skel w (on_node w a (update_node dx st))).
    { apply skel_of_nodes; auto. cbn; apply upd_length. intros l. rewrite nd_on_node. destruct (andb _ _); [unfold update_node; eauto|].
      exists (n_data (nd w l)). rewrite node_set_data_self; auto. }
    pose proof (skel_ndim _ _ S1) as Dn. rewrite Dn in *.
    split; [eapply skel_trans; eauto|]. split; auto. split; [unfold ndim in *; lia|].
    split. { intros l. rewrite D, nd_on_node. destruct (andb _ _); reflexivity. }
    split. { intros l N. rewrite F by (intros X; apply N; cbn; auto). rewrite nd_on_node.
      destruct (Nat.eqb_spec l a) as [->|]; auto. exfalso; apply N; cbn; auto. }
    split.
    + intros ND [|m] l Hm Ll; inversion ND; subst.
      * cbn in Hm. injection Hm as ->. rewrite F by auto. rewrite nd_on_node, Nat.eqb_refl. apply Nat.ltb_lt in Ll. rewrite Ll. cbn.
        unfold before. cbn. rewrite Nat.add_0_r. reflexivity.
      * cbn in Hm. rewrite (G H2 m l Hm) by (cbn; rewrite upd_length; auto).
        assert (N : l <> a) by (intros ->; apply nth_error_In in Hm; auto).
        rewrite nd_on_node. destruct (Nat.eqb_spec l a); [congruence|]. cbn [andb]. f_equal. unfold before. cbn. unfold ndim; lia.
    + intros l. destruct (I l) as [Q|Q]; auto. rewrite Q, nd_on_node. destruct (andb _ _); auto. right. cbn. eauto.
Qed.
Lemma update_nodes_spec w dx : let w' := update_nodes_w w dx in
  skel w w' /\ w_factors w' = w_factors w /\
  (forall l, nax (n_data (nd w' l)) = nax (n_data (nd w l))) /\
  (forall l, ~ In l (g_active (w_graph w)) -> nd w' l = nd w l) /\
  (NoDup (g_active (w_graph w)) -> forall m l, nth_error (g_active (w_graph w)) m = Some l -> l < length (w_nodes w) ->
     nd w' l = update_node dx (col w m) (nd w l)) /\
  (forall l, nst (n_data (nd w' l)) = nst (n_data (nd w l)) \/ exists v d, nst (n_data (nd w' l)) = val_update v d).
Proof.
  cbv zeta. pose proof (upd_fold dx (g_active (w_graph w)) w 0) as H. unfold update_nodes_w.
  change (fun '(w, start) l => (on_node w l (update_node dx start), start + n_dim (nd w l))) with (upd_step dx).
  destruct (fold_left (upd_step dx) (g_active (w_graph w)) (w, 0)) as [w' st']. cbn [fst].
  destruct H as (A & B & C & D & E & F & G). repeat split; auto; apply A.
Qed.
