(** Well-formedness of the graph along programs. *)
Require Import Reals List Arith Lia Lra Bool.
From Verif Require Import SO3 Nodes NodesProofs Robust Graph GraphProofs Sums Solve SpecSolve SolveIndex SolveFrame SolveBuild SolveProofs Session.
Import ListNotations.
Local Open Scope nat_scope.
Local Arguments nd : simpl never.
Local Arguments fa : simpl never.

Lemma nd_nth w l n : nth_error (w_nodes w) l = Some n -> nd w l = n.
Proof. intros. unfold nd. apply nth_error_nth; auto. Qed.
Lemma fa_nth w l f : nth_error (w_factors w) l = Some f -> fa w l = f.
Proof. intros. unfold fa. apply nth_error_nth; auto. Qed.
Lemma nth_nd w l : l < length (w_nodes w) -> nth_error (w_nodes w) l = Some (nd w l).
Proof. intros. unfold nd. apply nth_error_nth'; auto. Qed.
Lemma nth_fa w l : l < length (w_factors w) -> nth_error (w_factors w) l = Some (fa w l).
Proof. intros. unfold fa. apply nth_error_nth'; auto. Qed.

(** the invariant of well-behaved programs *)
Record good (w : world) : Prop := {
  gd_wf : wf w;
  gd_nodup : NoDup (g_nodes (w_graph w));
  gd_ids : forall k l, nth_error (g_nodes (w_graph w)) k = Some l -> l < length (w_nodes w) /\ n_id (nd w l) = k;
  gd_act : forall l, In l (g_active (w_graph w)) -> In l (g_nodes (w_graph w));
  gd_std : forall l, In l (g_nodes (w_graph w)) -> n_mode (nd w l) <> ANCHOR -> In l (g_active (w_graph w));
  gd_neigh : forall l, l < length (w_factors w) -> Forall (fun n => n < length (w_nodes w)) (f_nodes (fa w l));
  gd_kind : forall l, l < length (w_nodes w) -> n_dim (nd w l) = nval_dim (nst (n_data (nd w l))) /\
     same_kind (nst (n_data (nd w l))) (nax (n_data (nd w l))) = true }.

(** calls that keep a graph in order *)
Definition clean (w : world) (o : gop) : Prop :=
  match o with
  | ONewNode _ _ => True
  | ONewFactor _ _ ns _ _ _ _ => Forall (fun n => n < length (w_nodes w)) ns
  | OAddNode l => l < length (w_nodes w) /\ ~ In l (g_nodes (w_graph w)) /\ n_mode (nd w l) <> SCHUR_MARGI
  | OAddFactor l => l < length (w_factors w) /\
      Forall (fun n => In n (g_nodes (w_graph w))) (f_nodes (fa w l)) /\ NoDup (f_nodes (fa w l))
  | OAddEigen _ => False
  | ORmFactor n f => n < length (w_nodes w) /\ In f (n_factors (nd w n))
  | OSetMode _ _ => False
  | OSetState n v => n < length (w_nodes w) /\ same_kind (nst (n_data (nd w n))) v = true
  end.

Lemma wf_transfer w w' : w_graph w' = w_graph w -> length (w_nodes w) <= length (w_nodes w') -> length (w_factors w) <= length (w_factors w') ->
  (forall l, l < length (w_nodes w) -> n_id (nd w' l) = n_id (nd w l) /\ n_dim (nd w' l) = n_dim (nd w l) /\ n_mode (nd w' l) = n_mode (nd w l)) ->
  (forall l, l < length (w_factors w) -> f_dim (fa w' l) = f_dim (fa w l) /\ f_nodes (fa w' l) = f_nodes (fa w l)) ->
  (forall l, l < length (w_factors w) -> Forall (fun n => n < length (w_nodes w)) (f_nodes (fa w l))) ->
  wf w -> wf w'.
Proof.
  intros G Ln Lf N F V [W1 W2 W3 W4 W5 W6 W7]. constructor; rewrite ?G; auto.
  - intros l I. destruct (W1 l I) as [A B]. split; [lia|]. destruct (N l A) as (_ & _ & ->). auto.
  - erewrite map_ext_in; [exact W2|]. intros l I. apply N. apply W1; auto.
  - intros l I. specialize (W3 l I). lia.
  - intros l n I J. specialize (W3 l I). destruct (F l W3) as [_ E]. rewrite E in J. specialize (V l W3). rewrite Forall_forall in V.
    destruct (N n (V n J)) as (_ & _ & ->). eauto.
  - intros l I. specialize (W3 l I). destruct (F l W3) as [_ E]. rewrite E. specialize (V l W3). rewrite Forall_forall in V.
    specialize (W5 l I). erewrite filter_ext_in; [exact W5|]. intros n J. cbn. unfold is_anchor. destruct (N n (V n J)) as (_ & _ & ->). reflexivity.
  - rewrite W6. f_equal. apply map_ext_in. intros l I. symmetry. apply N. apply W1; auto.
  - rewrite W7. f_equal. apply map_ext_in. intros l I. symmetry. apply F; auto.
Qed.
Lemma good_transfer w w' : w_graph w' = w_graph w -> length (w_nodes w) <= length (w_nodes w') -> length (w_factors w) <= length (w_factors w') ->
  (forall l, l < length (w_nodes w) -> n_id (nd w' l) = n_id (nd w l) /\ n_dim (nd w' l) = n_dim (nd w l) /\ n_mode (nd w' l) = n_mode (nd w l)) ->
  (forall l, l < length (w_factors w) -> f_dim (fa w' l) = f_dim (fa w l) /\ f_nodes (fa w' l) = f_nodes (fa w l)) ->
  (forall l, l < length (w_factors w') -> Forall (fun n => n < length (w_nodes w')) (f_nodes (fa w' l))) ->
  (forall l, l < length (w_nodes w') -> n_dim (nd w' l) = nval_dim (nst (n_data (nd w' l))) /\ same_kind (nst (n_data (nd w' l))) (nax (n_data (nd w' l))) = true) ->
  good w -> good w'.
Proof.
  intros G Ln Lf N F V K [D1 D2 D3 D4 D5 D6 D7]. constructor; auto; rewrite ?G; auto.
  - apply (wf_transfer w); auto.
  - intros k l E. destruct (D3 k l E) as [A B]. split; [lia|]. destruct (N l A) as (-> & _). auto.
  - intros l I. apply In_nth_error in I as J. destruct J as [k J]. destruct (D3 k l J) as [A B]. destruct (N l A) as (_ & _ & ->). auto.
Qed.
Lemma nd_alloc w n l fs g : nd (mkW (w_nodes w ++ [n]) fs g) l = if l =? length (w_nodes w) then n else nd w l.
Proof.
  unfold nd; cbn. destruct (Nat.eqb_spec l (length (w_nodes w))) as [->|N].
  - rewrite app_nth2, Nat.sub_diag; auto.
  - destruct (Nat.lt_ge_cases l (length (w_nodes w))). rewrite app_nth1; auto. rewrite !nth_overflow; auto. rewrite app_length; cbn; lia.
Qed.
Lemma nd_link ns f w l g : nd (mkW (link_all ns f (w_nodes w)) g (w_graph w)) l = if l <? length (w_nodes w) then add_k f (count_occ Nat.eq_dec ns l) (nd w l) else nd w l.
Proof.
  destruct (Nat.ltb_spec l (length (w_nodes w))) as [L|L].
  - apply nd_nth. cbn. rewrite link_all_nth, (nth_nd w l L). reflexivity.
  - unfold nd. rewrite !nth_overflow; auto. cbn. rewrite link_all_length; auto.
Qed.
Lemma good_step w o : good w -> clean w o -> exists w', gstep w o = Some w' /\ good w'.
Proof.
  intros D C. pose proof D as [D1 D2 D3 D4 D5 D6 D7]. destruct o; cbn [clean gstep] in *; try contradiction.
  - (* new node *) eexists; split; [reflexivity|]. unfold alloc_node. apply (good_transfer w); auto; cbn [w_nodes w_factors w_graph]; rewrite ?app_length; cbn; try lia.
    + intros l L. rewrite nd_alloc. destruct (Nat.eqb_spec l (length (w_nodes w))); [lia|auto].
    + intros l L. specialize (D6 l L). eapply Forall_impl; [|exact D6]. cbn; intros; lia.
    + intros l L. rewrite nd_alloc. destruct (Nat.eqb_spec l (length (w_nodes w))); [|apply D7; lia]. cbn.
      rewrite kind_refl. rewrite (kind_dim _ _ (kind_init v)). auto.
  - (* new factor *) unfold alloc_factor. assert (X : forallb (fun l => l <? length (w_nodes w)) ns = true).
    { apply forallb_forall. rewrite Forall_forall in C. intros l I. apply Nat.ltb_lt; auto. }
    cbn [f_nodes factor_ctor]. rewrite X. eexists; split; [reflexivity|]. apply (good_transfer w); auto; cbn; rewrite ?app_length; cbn; try lia.
    + intros l L. unfold fa; cbn. rewrite app_nth1; auto.

    + intros l L. unfold fa; cbn. destruct (Nat.eq_dec l (length (w_factors w))) as [->|N].
      * rewrite app_nth2, Nat.sub_diag; auto.
      * rewrite app_nth1 by lia. apply D6. lia.
  - (* add node *) destruct C as (L & NI & NS). unfold add_node. rewrite (nth_nd w l L). eexists; split; [reflexivity|]. cbn [fst].
    set (k := length (g_nodes (w_graph w))). set (w' := mkW _ _ _).
    assert (ND : forall j, nd w' j = if j =? l then node_set_id k (nd w j) else nd w j).
    { intros j. unfold nd at 1, w'; cbn [w_nodes]. rewrite nth_upd. destruct (Nat.eqb_spec j l) as [->|]; auto. cbn [andb].
      apply Nat.ltb_lt in L. rewrite L. reflexivity. }
    assert (NL : length (w_nodes w') = length (w_nodes w)) by (unfold w'; cbn; apply upd_length).
    assert (NM : forall j, n_mode (nd w' j) = n_mode (nd w j) /\ n_dim (nd w' j) = n_dim (nd w j)) by (intros j; rewrite ND; destruct (j =? l); auto).
    assert (AC : forall j, In j (g_active (w_graph w')) <-> In j (g_active (w_graph w)) \/ (j = l /\ n_mode (nd w l) = STANDARD)).
    { intros j. unfold w'; cbn. destruct (n_mode (nd w l)) eqn:M; rewrite ?in_app_iff; cbn; intuition congruence. }
    assert (NA : ~ In l (g_active (w_graph w))) by (intros I; apply NI; auto).
    constructor.
    + constructor; rewrite ?NL.
      * intros j J. apply AC in J. destruct (NM j) as [-> _]. destruct J as [J|[-> J]]; [apply (wf_active _ D1 j J)|]. split; auto. congruence.
      * assert (E1 : map (fun l0 => n_id (nd w' l0)) (g_active (w_graph w)) = map (fun l0 => n_id (nd w l0)) (g_active (w_graph w))).
        { apply map_ext_in. intros j J. rewrite ND. destruct (Nat.eqb_spec j l); subst; auto. contradiction. }
        unfold w' at 2; cbn [w_graph g_active]. destruct (n_mode (nd w l)); try (rewrite E1; apply D1).
        rewrite map_app, E1. apply NoDup_app_intro; [apply D1|cbn; constructor; [tauto|constructor]|].
        intros x X [Y|[]]. rewrite ND, Nat.eqb_refl in Y. cbn in Y. subst x. apply in_map_iff in X. destruct X as (j & E & J).
        apply D4 in J. apply In_nth_error in J. destruct J as [q J]. destruct (D3 _ _ J) as [_ B]. assert (q < k) by (apply nth_error_Some; congruence). lia.
      * intros f F. apply (wf_factors _ D1 f F).
      * intros f n F I M. apply AC. left. rewrite (proj1 (NM n)) in M. apply (wf_neigh _ D1 f n F I M).
      * intros f F. erewrite filter_ext; [apply (wf_distinct _ D1 f F)|]. intros n. cbn. unfold is_anchor. rewrite (proj1 (NM n)). reflexivity.
      * assert (E1 : map (ndim w') (g_active (w_graph w)) = map (ndim w) (g_active (w_graph w))) by (apply map_ext; intros; apply NM).
        unfold w' at 1 3; cbn [w_graph g_active g_stateDim]. destruct (n_mode (nd w l)); try (rewrite E1; apply D1).
        rewrite map_app, lsumn_app, E1, <- (wf_state _ D1). cbn [map lsumn]. unfold ndim. rewrite (proj2 (NM l)). lia.
      * apply D1.
    + unfold w'; cbn. apply NoDup_app_intro; auto. constructor; [intros []|constructor]. intros x X [->|[]]. auto.
    + intros q j J. rewrite NL. unfold w' in J; cbn in J. rewrite nth_error_snoc in J. destruct (Nat.ltb_spec q (length (g_nodes (w_graph w)))).
      * destruct (D3 _ _ J) as [A B]. split; auto. rewrite ND. destruct (Nat.eqb_spec j l); auto. subst. apply nth_error_In in J. contradiction.
      * destruct (Nat.eqb_spec q (length (g_nodes (w_graph w)))); [|discriminate]. injection J as <-. split; auto. rewrite ND, Nat.eqb_refl. auto.
    + intros j J. apply AC in J. unfold w'; cbn. apply in_app_iff. destruct J as [J|[-> _]]; cbn; auto.
    + intros j J M. rewrite (proj1 (NM j)) in M. apply AC. unfold w' in J; cbn in J. apply in_app_iff in J. destruct J as [J|[->|[]]]; auto.
      right. split; auto. destruct (n_mode (nd w j)); congruence.
    + intros f F. rewrite NL. apply D6. auto.
    + intros j J. rewrite NL in J. rewrite ND. destruct (j =? l); cbn; apply D7; auto.
  - (* add factor *) destruct C as (L & CN & CD). unfold add_factor. rewrite (nth_fa w l L). eexists; split; [reflexivity|]. cbn [fst].
    set (k := length (g_factors (w_graph w))). set (w' := mkW _ _ _).
    assert (ND : forall j, n_id (nd w' j) = n_id (nd w j) /\ n_dim (nd w' j) = n_dim (nd w j) /\ n_mode (nd w' j) = n_mode (nd w j) /\ n_data (nd w' j) = n_data (nd w j)).
    { intros j. pose proof (nd_link (f_nodes (fa w l)) l w j (w_factors w)) as E. change (nd _ j) with (nd w' j) in E at 1. rewrite E. destruct (j <? _); cbn; auto. }
    assert (FA : forall j, f_dim (fa w' j) = f_dim (fa w j) /\ f_nodes (fa w' j) = f_nodes (fa w j)).
    { intros j. unfold fa at 1 3, w'; cbn [w_factors]. rewrite nth_upd. fold (fa w j). destruct (andb _ _); cbn; auto. }
    assert (NL : length (w_nodes w') = length (w_nodes w)) by (unfold w'; cbn; apply link_all_length).
    assert (FL : length (w_factors w') = length (w_factors w)) by (unfold w'; cbn; apply upd_length).
    assert (IA : forall n, is_anchor (nd w' n) = is_anchor (nd w n)) by (intros n; unfold is_anchor; destruct (ND n) as (_ & _ & -> & _); auto).
    constructor; rewrite ?NL, ?FL.
    + constructor; rewrite ?NL, ?FL.
      * intros j J. destruct (ND j) as (_ & _ & -> & _). apply (wf_active _ D1 j J).
      * erewrite map_ext; [apply (wf_ids _ D1)|]. intros; apply ND.
      * intros f F. unfold w' in F; cbn in F. apply in_app_iff in F. destruct F as [F|[<-|[]]]; auto. apply (wf_factors _ D1 f F).
      * intros f n F I M. destruct (ND n) as (_ & _ & E & _). rewrite E in M. rewrite (proj2 (FA f)) in I. unfold w' in F; cbn in F. apply in_app_iff in F. destruct F as [F|[<-|[]]].
        apply (wf_neigh _ D1 f n F I M). apply D5; auto. rewrite Forall_forall in CN. auto.
      * intros f F. rewrite (proj2 (FA f)). erewrite filter_ext. 2:{ intros n; cbn. rewrite IA. reflexivity. }
        unfold w' in F; cbn in F. apply in_app_iff in F. destruct F as [F|[<-|[]]]. apply (wf_distinct _ D1 f F). apply NoDup_filter. auto.
      * assert (E1 : map (ndim w') (g_active (w_graph w)) = map (ndim w) (g_active (w_graph w))) by (apply map_ext; intros; apply ND).
        change (g_active (w_graph w')) with (g_active (w_graph w)). rewrite E1. apply D1.
      * unfold w' at 1 3; cbn [w_graph g_factors g_obsDim]. rewrite map_app, lsumn_app. cbn [map lsumn].
        assert (E1 : map (fdim w') (g_factors (w_graph w)) = map (fdim w) (g_factors (w_graph w))) by (apply map_ext; intros; apply FA).
        rewrite E1, (wf_obs _ D1). unfold fdim at 3. rewrite (proj1 (FA l)). lia.
    + exact D2.
    + intros q j J. destruct (D3 _ _ J) as [A B]. split; auto. destruct (ND j) as (-> & _). auto.
    + exact D4.
    + intros j J M. destruct (ND j) as (_ & _ & E & _). rewrite E in M. apply D5; auto.
    + intros f F. rewrite (proj2 (FA f)). apply D6; auto.
    + intros j J. destruct (ND j) as (_ & -> & _ & ->). apply D7; auto.
  - (* rm factor *) destruct C as [L I]. unfold rm_factor. rewrite (nth_nd w n L). unfold node_rm_factor.
    pose proof (erase_first_spec f (n_factors (nd w n))) as S. destruct (erase_first f (n_factors (nd w n))) as [r|]; [|contradiction].
    cbn. eexists; split; [reflexivity|]. set (w' := mkW _ _ _).
    assert (ND : forall j, n_id (nd w' j) = n_id (nd w j) /\ n_dim (nd w' j) = n_dim (nd w j) /\ n_mode (nd w' j) = n_mode (nd w j) /\ n_data (nd w' j) = n_data (nd w j)).
    { intros j. assert (E : nd w' j = if andb (j =? n) (j <? length (w_nodes w)) then mkNode (n_id (nd w n)) (n_dim (nd w n)) (n_mode (nd w n)) r (n_data (nd w n)) else nd w j).
      { unfold nd at 1, w'; cbn [w_nodes]. rewrite nth_upd. reflexivity. }
      clearbody w'. rewrite E. destruct (Nat.eqb_spec j n) as [Q|Q]; cbn [andb]; auto. rewrite Q. destruct (n <? _); cbn; auto. }
    apply (good_transfer w); try exact D; try reflexivity; unfold w'; cbn [w_nodes w_factors w_graph]; rewrite ?upd_length; fold w'; auto.
    + intros j J. destruct (ND j) as (-> & -> & -> & _). auto.
    + intros j J. destruct (ND j) as (_ & -> & _ & ->). auto.
  - (* set state *) destruct C as [L K]. unfold set_state. rewrite (nth_nd w n L). unfold node_set_state. rewrite K. cbn. eexists; split; [reflexivity|].
    assert (ND : forall j, nd (mkW (upd (w_nodes w) n (node_set_data (mkN (val_set v) (nax (n_data (nd w n)))))) (w_factors w) (w_graph w)) j =
       if j =? n then node_set_data (mkN (val_set v) (nax (n_data (nd w n)))) (nd w j) else nd w j).
    { intros j. unfold nd at 1; cbn [w_nodes]. rewrite nth_upd. destruct (Nat.eqb_spec j n) as [->|]; cbn [andb]; auto. apply Nat.ltb_lt in L. rewrite L. auto. }
    apply (good_transfer w); try exact D; try reflexivity; cbn [w_nodes w_factors w_graph]; rewrite ?upd_length; auto.
    + intros j J. rewrite ND. destruct (j =? n); cbn; auto.
    + intros j J. rewrite ND. destruct (Nat.eqb_spec j n) as [->|]; cbn; auto. destruct (D7 n L) as [A B]. split.
      * rewrite A. apply kind_dim. apply kind_trans with v; auto using kind_set.
      * apply kind_trans with v; [apply kind_sym, kind_set|]. eapply kind_trans; [apply kind_sym; exact K|]. auto.
Qed.

(** solving changes neither structure nor kinds *)
Lemma good_skel w w' : skel w w' ->
  (forall l, same_kind (nst (n_data (nd w l))) (nst (n_data (nd w' l))) = true /\ same_kind (nax (n_data (nd w l))) (nax (n_data (nd w' l))) = true \/
             same_kind (nst (n_data (nd w l))) (nst (n_data (nd w' l))) = true /\ same_kind (nst (n_data (nd w l))) (nax (n_data (nd w' l))) = true) -> good w -> good w'.
Proof.
  intros SK K D. apply (good_transfer w); auto; rewrite ?(sk_nlen _ _ SK), ?(sk_flen _ _ SK); auto; try apply SK.
  - intros l _. destruct (sk_node _ _ SK l) as (A & B & C & _). auto.
  - intros l _. destruct (sk_factor _ _ SK l) as (A & B & _). auto.
  - intros l L. destruct (sk_factor _ _ SK l) as (A & -> & _). apply (gd_neigh _ D l L).
  - intros l L. destruct (sk_node _ _ SK l) as (_ & -> & _). destruct (gd_kind _ D l L) as [A B]. rewrite A.
    destruct (K l) as [[C E]|[C E]].
    + split. apply kind_dim; auto. eapply kind_trans; [apply kind_sym; exact C|]. eapply kind_trans; [exact B|]. exact E.
    + split. apply kind_dim; auto. eapply kind_trans; [apply kind_sym; exact C|]. exact E.
Qed.
Definition kinds_kept (w w' : world) : Prop := forall l, l < length (w_nodes w) -> same_kind (nst (n_data (nd w l))) (nax (n_data (nd w l))) = true ->
  same_kind (nst (n_data (nd w l))) (nst (n_data (nd w' l))) = true /\ same_kind (nst (n_data (nd w l))) (nax (n_data (nd w' l))) = true.
Lemma kk_refl w w' : w_nodes w' = w_nodes w -> kinds_kept w w'.
Proof. intros E l _ K. rewrite (nd_same w' w) by auto. split; auto. apply kind_refl. Qed.
Lemma kk_trans a b c : length (w_nodes b) = length (w_nodes a) -> kinds_kept a b -> kinds_kept b c -> kinds_kept a c.
Proof.
  intros L H1 H2 l Ll K. destruct (H1 l Ll K) as [A B]. destruct (H2 l) as [C D]; [lia| |].
  - eapply kind_trans; [apply kind_sym; exact A|exact B].
  - split; (eapply kind_trans; [exact A|]); [exact C|exact D].
Qed.
Lemma kk_aux w : kinds_kept w (sync_aux w).
Proof.
  intros l L K. destruct (sync_aux_spec w) as (_ & _ & N). rewrite N. destruct (andb _ _); cbn; rewrite ?kind_refl; auto.
  split; auto. apply kind_set.
Qed.
Lemma kk_state w : kinds_kept w (sync_state w).
Proof.
  intros l L K. destruct (sync_state_spec w) as (_ & _ & N). rewrite N. destruct (andb _ _); cbn; rewrite ?kind_refl; auto.
  split; auto. eapply kind_trans; [exact K|]. apply kind_set.
Qed.
Lemma kk_upd_fold dx ls : forall w st, kinds_kept w (fst (fold_left (upd_step dx) ls (w, st))).
Proof.
  induction ls as [|a ls IH]; intros w st; cbn [fold_left upd_step]. { apply kk_refl; auto. }
  eapply kk_trans; [|  |apply IH]. { cbn. apply upd_length. }
  intros l L K. rewrite nd_on_node. destruct (andb _ _); cbn; rewrite ?kind_refl; auto. split; auto. apply kind_update.
Qed.
Lemma kk_update w dx : kinds_kept w (update_nodes_w w dx).
Proof. exact (kk_upd_fold dx (g_active (w_graph w)) w 0). Qed.
Lemma chi2_fst w flag : skel w (fst (chi2 flag w)) /\ w_nodes (fst (chi2 flag w)) = w_nodes w.
Proof.
  destruct flag.
  - unfold chi2. change (fun '(w, t) l => let w' := eval_factor_chi2 w l in (w', (t + f_chi2 (fa w' l))%R)) with (chi2_step true).
    assert (G : forall ls w t, fst (fold_left (chi2_step true) ls (w, t)) = fold_left eval_factor_chi2 ls w).
    { induction ls; intros; cbn [fold_left]; auto. change (chi2_step true (w0, t) a) with (eval_factor_chi2 w0 a, (t + f_chi2 (fa (eval_factor_chi2 w0 a) a))%R). auto. }
    rewrite G. split; [apply skel_chi2 | apply (chi2_world_spec w)].
  - rewrite chi2_false. cbn. split; auto. apply skel_refl.
Qed.
Lemma kk_lm_iter lin s s' e : lm_iter lin s = Some (s', e) -> kinds_kept (s_w s) (s_w s').
Proof.
  unfold lm_iter. destruct (optimize_gauss_newton lin true s) as [s1|] eqn:E; [|discriminate].
  destruct (gn_frame _ _ _ _ E) as (S1 & N1 & _). rewrite chi2_false. cbn [with_world s_w update_nodes].
  change (s_dx (with_world s1 (sync_aux (s_w s1)))) with (s_dx s1). set (w3 := update_nodes_w (sync_aux (s_w s1)) (s_dx s1)).
  destruct (chi2_fst w3 true) as [S4 N4]. destruct (chi2 true w3) as [w4 x]. cbn [fst] in *.
  destruct (update_nodes_spec (sync_aux (s_w s1)) (s_dx s1)) as (S3 & _). destruct (sync_aux_spec (s_w s1)) as (S2 & _).
  assert (K4 : kinds_kept (s_w s) w4).
  { eapply kk_trans; [apply (sk_nlen _ _ S1)|apply kk_refl; auto|]. eapply kk_trans; [apply (sk_nlen _ _ S2)|apply kk_aux|].
    eapply kk_trans; [apply (sk_nlen _ _ S3)|apply kk_update|]. apply kk_refl; auto. }
  assert (L4 : length (w_nodes w4) = length (w_nodes (s_w s))).
  { rewrite (sk_nlen _ _ S4). unfold w3. rewrite (sk_nlen _ _ S3), (sk_nlen _ _ S2), (sk_nlen _ _ S1). auto. }
  destruct (Rltb _ 0); [|destruct (Rltb _ _)]; intros X; injection X as <- <-; cbn; auto.
  eapply kk_trans; [|exact K4|apply kk_state]. auto.
Qed.
Lemma kk_iters lin es s s' : iters lin es s s' -> kinds_kept (s_w s) (s_w s').
Proof.
  induction 1. { apply kk_refl; auto. }
  eapply kk_trans; [|eapply kk_lm_iter; eauto|eauto]. destruct (lm_iter_frame _ _ _ _ H) as (SK & _). apply SK.
Qed.
Lemma solve_frame lin m k la tol s s' : solve lin m k la tol s = Some s' -> skel (s_w s) (s_w s') /\
  (forall l, ~ In l (g_active (w_graph (s_w s))) -> nd (s_w s') l = nd (s_w s) l) /\ kinds_kept (s_w s) (s_w s').
Proof.
  unfold solve. destruct m.
  - destruct (optimize_gauss_newton lin false _) as [s1|] eqn:E; [|discriminate]. cbn. intros X; injection X as <-.
    destruct (gn_frame _ _ _ _ E) as (S1 & N1 & _). cbn [with_tol with_lambda s_w] in S1, N1.
    destruct (update_nodes_spec (s_w s1) (s_dx s1)) as (S3 & _ & _ & N3 & _). unfold update_nodes; cbn [with_world s_w].
    split; [eapply skel_trans; eauto|]. split.
    + intros l I. rewrite N3 by (rewrite (sk_graph _ _ S1); auto). apply nd_same; auto.
    + eapply kk_trans; [apply (sk_nlen _ _ S1)|apply kk_refl; auto|apply kk_update].
  - destruct (optimize_levenberg_marquardt lin k _) as [[s1 j]|] eqn:E; [|discriminate]. cbn. intros X; injection X as <-.
    unfold optimize_levenberg_marquardt in E. apply lm_loop_spec in E; [|lia]. destruct E as (es & e & I & _).
    destruct (iters_frame _ _ _ _ I) as (A & B & _). split; auto. split; auto. exact (kk_iters _ _ _ _ I).
Qed.
Lemma solve_total lin m k la tol s : wf (s_w s) -> exists s', solve lin m k la tol s = Some s'.
Proof.
  intros H. unfold solve. destruct m.
  - destruct (gn_ok lin false (with_tol (with_lambda s la) tol) H) as (s1 & _ & _ & _ & -> & _). cbn; eauto.
  - destruct (lm_loop_total lin k (S k) 0 (with_lambda (with_tol (with_lambda s la) tol) (1 / 100000)%R) H) as (s1 & j & E); try lia.
    unfold optimize_levenberg_marquardt. rewrite E. cbn; eauto.
Qed.
Lemma good_kk w w' : skel w w' -> kinds_kept w w' -> good w -> good w'.
Proof.
  intros SK K D. apply good_skel with w; auto. intros l. destruct (Nat.lt_ge_cases l (length (w_nodes w))) as [L|L].
  - right. apply K; auto. apply D; auto.
  - left. unfold nd. rewrite !nth_overflow; auto using kind_refl. rewrite (sk_nlen _ _ SK); auto.
Qed.
Lemma good_solve lin m k la tol s : good (s_w s) -> exists s', solve lin m k la tol s = Some s' /\ good (s_w s').
Proof.
  intros D. destruct (solve_total lin m k la tol s (gd_wf _ D)) as [s' E]. exists s'. split; auto.
  destruct (solve_frame _ _ _ _ _ _ _ E) as (SK & _ & K). apply (good_kk (s_w s)); auto.
Qed.
Lemma good_chi2 s flag : good (s_w s) -> good (fst (chi2 flag (s_w s))).
Proof. intros D. destruct (chi2_fst (s_w s) flag) as [SK E]. apply (good_kk (s_w s)); auto. apply kk_refl; auto. Qed.
Lemma good_new : good world_new.
Proof.
  constructor; cbn; try tauto; try lia.
  - constructor; cbn; try tauto; try reflexivity. constructor.
  - constructor.
  - intros [|k] l; discriminate.
Qed.

(** clean programs *)
Definition sclean1 (s : solver) (o : sop) : Prop := match o with SGraph o => clean (s_w s) o | _ => True end.
Fixpoint sclean (lin : linear_solver) (s : solver) (ops : list sop) : Prop :=
  match ops with
  | [] => True
  | o :: r => sclean1 s o /\ forall s', sstep lin s o = Some s' -> sclean lin s' r
  end.
Lemma sclean_run lin ops : forall s, good (s_w s) -> sclean lin s ops -> exists s', srun lin s ops = Some s' /\ good (s_w s').
Proof.
  induction ops as [|o ops IH]; intros s D C; cbn; eauto. destruct C as [C1 C2].
  assert (X : exists s', sstep lin s o = Some s' /\ good (s_w s')).
  { destruct o; cbn in *.
    - destruct (good_step _ _ D C1) as (w' & -> & D'). cbn. eauto.
    - apply good_solve; auto.
    - eexists; split; [reflexivity|]. apply good_chi2; auto. }
  destruct X as (s' & E & D'). rewrite E. apply IH; auto.
Qed.

(** ** the Python class *)
(** arguments a Python caller must respect: ids handed out before, two different
    ones for a binary factor; a factor's constructor sets a state of the right kind *)
Definition pyclean1 (s : solver) (o : pyop) : Prop :=
  match o with
  | PyNode m v => m <> SCHUR_MARGI
  | PyFactor c ids info => Forall (fun i => i < number_nodes (s_w s)) ids /\ NoDup ids /\
      match fc_init c with
      | None => True
      | Some (p, g) => p < length ids /\ forall ls, get_nodes (s_w s) ids = Some ls -> forall n, nth_error ls p = Some n ->
          same_kind (nst (n_data (nd (s_w s) n))) (g (map (fun l => nst (n_data (nd (s_w s) l))) ls)) = true
      end
  | _ => True
  end.
Fixpoint pyclean (lin : linear_solver) (rob : robust_type) (s : solver) (ops : list pyop) : Prop :=
  match ops with
  | [] => True
  | o :: r => pyclean1 s o /\ forall s', pystep lin rob s o = Some s' -> pyclean lin rob s' r
  end.
Lemma get_nodes_ok w ids : Forall (fun i => i < number_nodes w) ids -> exists ls, get_nodes w ids = Some ls /\ length ls = length ids /\
  (forall p i, nth_error ids p = Some i -> exists l, nth_error ls p = Some l /\ nth_error (g_nodes (w_graph w)) i = Some l).
Proof.
  induction 1 as [|i ids L F IH]; cbn. { exists []. repeat split; auto. intros [|p] i; discriminate. }
  destruct IH as (ls & -> & Len & H). unfold get_node. unfold number_nodes in L. destruct (nth_error (g_nodes (w_graph w)) i) as [l|] eqn:E.
  2:{ apply nth_error_None in E. lia. }
  exists (l :: ls). cbn. repeat split; auto. intros [|p] j Hj; cbn in *; eauto. injection Hj as <-. eauto.
Qed.
Lemma get_nodes_in w ids ls : get_nodes w ids = Some ls -> NoDup (g_nodes (w_graph w)) -> NoDup ids -> NoDup ls /\ Forall (fun l => In l (g_nodes (w_graph w))) ls.
Proof.
  intros E ND NI. revert ls E. induction ids as [|i ids IH]; intros ls E; cbn in E. { injection E as <-. split; constructor. }
  destruct (get_node w i) as [l|] eqn:G; [|discriminate]. destruct (get_nodes w ids) as [r|] eqn:Gr; [|discriminate]. injection E as <-.
  inversion NI; subst. destruct (IH H2 r eq_refl) as [A B]. unfold get_node in G. split; constructor; auto.
  - intros I. assert (X : exists j, In j ids /\ nth_error (g_nodes (w_graph w)) j = Some l).
    { clear - Gr I. revert r Gr I. induction ids as [|j ids IH]; intros r Gr I; cbn in Gr. { injection Gr as <-. destruct I. }
      destruct (get_node w j) as [l'|] eqn:G; [|discriminate]. destruct (get_nodes w ids) as [r'|]; [|discriminate]. injection Gr as <-.
      destruct I as [->|I]. { exists j. cbn; auto. } destruct (IH r' eq_refl I) as (j' & J & K). exists j'. cbn; auto. }
    destruct X as (j & J & K). assert (i = j). { eapply (proj1 (NoDup_nth_error _) ND); [apply nth_error_Some; congruence|congruence]. } subst. auto.
  - eapply nth_error_In; eauto.
Qed.
Lemma gstep_nodes_keep w o w' : gstep w o = Some w' -> (match o with OSetState _ _ | ONewFactor _ _ _ _ _ _ _ => True | _ => False end) ->
  w_graph w' = w_graph w /\ length (w_nodes w') = length (w_nodes w).
Proof. intros H K. destruct o; try contradiction; gstep_inv H; cbn; rewrite ?upd_length; auto. Qed.
Lemma pystep_good lin rob s o : good (s_w s) -> pyclean1 s o -> exists s', pystep lin rob s o = Some s' /\ good (s_w s').
Proof.
  intros D C. destruct o; cbn [pystep pyclean1] in *.
  - unfold py_node. cbn [grun]. destruct (good_step (s_w s) (ONewNode m v) D I) as (w1 & E1 & D1). rewrite E1.
    destruct (good_step w1 (OAddNode (length (w_nodes (s_w s)))) D1) as (w2 & E2 & D2).
    { cbn in E1. injection E1 as <-. pose proof D as [W1 W2 W3 W4 W5 W6 W7]. unfold alloc_node; cbn [clean w_nodes w_graph]. rewrite app_length, nd_alloc, Nat.eqb_refl. cbn. repeat split; auto; try lia.
      intros I. apply In_nth_error in I. destruct I as [k I]. destruct (W3 _ _ I). lia. }
    rewrite E2. cbn. eauto.
  - destruct C as (CI & CN & CK). destruct (get_nodes_ok _ _ CI) as (ls & G & Len & _). unfold py_factor. rewrite G.
    destruct (get_nodes_in _ _ _ G (gd_nodup _ D) CN) as [NDl INl].
    assert (X : forall w1, good w1 -> w_graph w1 = w_graph (s_w s) -> w_factors w1 = w_factors (s_w s) -> exists w2,
      grun w1 [ONewFactor (fc_dim c) (fc_alldim c) ls (fc_res c) (fc_jac c) info rob; OAddFactor (length (w_factors (s_w s)))] = Some w2 /\ good w2).
    { intros w1 D1 G1 F1. cbn [grun].
      destruct (good_step w1 (ONewFactor (fc_dim c) (fc_alldim c) ls (fc_res c) (fc_jac c) info rob) D1) as (w2 & E2 & D2).
      { cbn. rewrite Forall_forall in *. intros l I. specialize (INl l I). rewrite <- G1 in INl. apply In_nth_error in INl. destruct INl as [k K].
        apply (gd_ids _ D1 _ _ K). }
      rewrite E2. destruct (gstep_nodes_keep _ _ _ E2 I) as [G2 _].
      assert (F2 : w_factors w2 = w_factors w1 ++ [factor_ctor (fc_dim c) (fc_alldim c) ls (fc_res c) (fc_jac c) info rob]).
      { cbn [gstep] in E2. apply alloc_factor_inv in E2. destruct E2 as [_ ->]. reflexivity. }
      destruct (good_step w2 (OAddFactor (length (w_factors (s_w s)))) D2) as (w3 & E3 & D3).
      { cbn. rewrite F2, app_length, F1; cbn. split; [lia|]. unfold fa. rewrite F2, F1, app_nth2, Nat.sub_diag by lia. cbn.
        rewrite G2, G1. auto. }
      rewrite E3. eauto. }
    destruct (fc_init c) as [[p g]|].
    + destruct CK as [Lp CK]. destruct (nth_error ls p) as [n|] eqn:En. 2:{ apply nth_error_None in En. lia. }
      specialize (CK ls G n En).
      assert (Ln : n < length (w_nodes (s_w s))).
      { rewrite Forall_forall in INl. pose proof (INl n (nth_error_In _ _ En)) as I. apply In_nth_error in I. destruct I as [k K]. apply (gd_ids _ D _ _ K). }
      destruct (good_step (s_w s) (OSetState n (g (map (fun l => nst (n_data (nd (s_w s) l))) ls))) D (conj Ln CK)) as (w1 & E1 & D1).
      destruct (gstep_nodes_keep _ _ _ E1 I) as [G1 _].
      assert (F1 : w_factors w1 = w_factors (s_w s)).
      { cbn [gstep] in E1. apply set_state_inv in E1. destruct E1 as (x & d & _ & _ & ->). reflexivity. }
      destruct (X w1 D1 G1 F1) as (w2 & E2 & D2). cbn [app]. cbn [grun]. rewrite E1. cbn [grun] in E2. rewrite E2. cbn. eauto.
    + destruct (X (s_w s) D eq_refl eq_refl) as (w2 & E2 & D2). cbn [app]. rewrite E2. cbn. eauto.
  - apply good_solve; auto.
  - eexists; split; [reflexivity|]. apply good_chi2; auto.
Qed.
Lemma pyclean_run lin rob ops : forall s, good (s_w s) -> pyclean lin rob s ops -> exists s', pyrun lin rob s ops = Some s' /\ good (s_w s').
Proof.
  induction ops as [|o ops IH]; intros s D C; cbn; eauto. destruct C as [C1 C2].
  destruct (pystep_good lin rob s o D C1) as (s' & E & D'). rewrite E. apply IH; auto.
Qed.
