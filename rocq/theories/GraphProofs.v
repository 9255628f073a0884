(** Proofs about Graph.v. *)
Require Import Reals List Arith Lia Bool.
From Verif Require Import Nodes Robust Graph.
Import ListNotations.
Local Open Scope nat_scope.

(** ** upd *)
Lemma upd_length {A} (l : list A) i f : length (upd l i f) = length l.
Proof. revert i; induction l; destruct i; cbn; auto. Qed.
Lemma upd_nth {A} (l : list A) i f j : nth_error (upd l i f) j =
  if Nat.eqb j i then option_map f (nth_error l j) else nth_error l j.
Proof.
  revert i j; induction l; destruct i, j; cbn; auto.
  destruct (Nat.eqb _ _); auto.
Qed.
Lemma upd_nth_eq {A} (l : list A) i f x : nth_error l i = Some x -> nth_error (upd l i f) i = Some (f x).
Proof. intros H. rewrite upd_nth, Nat.eqb_refl, H. reflexivity. Qed.
Lemma upd_nth_neq {A} (l : list A) i f j : j <> i -> nth_error (upd l i f) j = nth_error l j.
Proof. intros H. rewrite upd_nth. destruct (Nat.eqb_spec j i); congruence. Qed.

Lemma link_all_length ns f : forall h, length (link_all ns f h) = length h.
Proof. unfold link_all. induction ns; intros; cbn; auto. rewrite IHns, upd_length. reflexivity. Qed.
(** what linking does to one node *)
Definition add_k (f : loc) (k : nat) (n : node) : node :=
  mkNode (n_id n) (n_dim n) (n_mode n) (n_factors n ++ repeat f k) (n_data n).
Lemma link_all_nth ns f : forall h j, nth_error (link_all ns f h) j =
  option_map (add_k f (count_occ Nat.eq_dec ns j)) (nth_error h j).
Proof.
  unfold link_all. induction ns as [|a ns IH]; intros h j; cbn -[Nat.eq_dec].
  - destruct (nth_error h j) as [n|]; cbn; auto. destruct n; unfold add_k; cbn. rewrite app_nil_r. reflexivity.
  - rewrite IH, upd_nth. destruct (Nat.eq_dec a j) as [->|N].
    + rewrite Nat.eqb_refl. destruct (nth_error h j) as [n|]; cbn; auto. f_equal. unfold add_k; cbn. f_equal.
      rewrite <- app_assoc. reflexivity.
    + destruct (Nat.eqb_spec j a); [congruence|]. reflexivity.
Qed.

(** ** what a program did *)
Fixpoint added_nodes (ops : list gop) : list loc :=
  match ops with [] => [] | OAddNode l :: r => l :: added_nodes r | _ :: r => added_nodes r end.
Fixpoint added_factors (ops : list gop) : list loc :=
  match ops with [] => [] | OAddFactor l :: r => l :: added_factors r | _ :: r => added_factors r end.
Fixpoint added_eigen (ops : list gop) : list loc :=
  match ops with [] => [] | OAddEigen l :: r => l :: added_eigen r | _ :: r => added_eigen r end.
Fixpoint removed (ops : list gop) (n f : loc) : nat :=
  match ops with
  | [] => 0
  | ORmFactor n' f' :: r => (if andb (Nat.eqb n n') (Nat.eqb f f') then 1 else 0) + removed r n f
  | _ :: r => removed r n f end.

Lemma added_nodes_app a b : added_nodes (a ++ b) = added_nodes a ++ added_nodes b.
Proof. induction a as [|o a IH]; cbn; auto. destruct o; cbn; rewrite IH; auto. Qed.
Lemma added_factors_app a b : added_factors (a ++ b) = added_factors a ++ added_factors b.
Proof. induction a as [|o a IH]; cbn; auto. destruct o; cbn; rewrite IH; auto. Qed.
Lemma added_eigen_app a b : added_eigen (a ++ b) = added_eigen a ++ added_eigen b.
Proof. induction a as [|o a IH]; cbn; auto. destruct o; cbn; rewrite IH; auto. Qed.
Lemma removed_app a b n f : removed (a ++ b) n f = removed a n f + removed b n f.
Proof. induction a as [|o a IH]; cbn; auto. destruct o; cbn; rewrite IH; auto. lia. Qed.

Lemma grun_app w a b : grun w (a ++ b) = match grun w a with Some w' => grun w' b | None => None end.
Proof. revert w; induction a; intros; cbn; auto. destruct (gstep w a); auto. Qed.

(** induction over executions, last call last *)
Lemma grun_ind (P : list gop -> world -> Prop) :
  P [] world_new ->
  (forall ops w o w', grun world_new ops = Some w -> P ops w -> gstep w o = Some w' -> P (ops ++ [o]) w') ->
  forall ops w, grun world_new ops = Some w -> P ops w.
Proof.
  intros H0 HS ops. induction ops as [|o ops IH] using rev_ind; intros w H.
  - injection H as <-. exact H0.
  - rewrite grun_app in H. destruct (grun world_new ops) as [w1|] eqn:E; [|discriminate].
    cbn in H. destruct (gstep w1 o) as [w2|] eqn:E2; [|discriminate]. injection H as <-.
    eapply HS; eauto.
Qed.

Lemma add_node_inv w l w' k : add_node w l = Some (w', k) -> exists n, nth_error (w_nodes w) l = Some n /\
  k = number_nodes w /\ w_nodes w' = upd (w_nodes w) l (node_set_id k) /\ w_factors w' = w_factors w /\
  g_nodes (w_graph w') = g_nodes (w_graph w) ++ [l] /\ g_factors (w_graph w') = g_factors (w_graph w) /\
  g_eigen (w_graph w') = g_eigen (w_graph w) /\ g_obsDim (w_graph w') = g_obsDim (w_graph w) /\
  (n_mode n = STANDARD -> g_active (w_graph w') = g_active (w_graph w) ++ [l] /\
       g_stateDim (w_graph w') = g_stateDim (w_graph w) + n_dim n) /\
  (n_mode n <> STANDARD -> g_active (w_graph w') = g_active (w_graph w) /\
       g_stateDim (w_graph w') = g_stateDim (w_graph w)).
Proof.
  unfold add_node. destruct (nth_error (w_nodes w) l) as [n|] eqn:E; [|discriminate].
  intros H. injection H as <- <-. exists n. cbn. repeat split; auto; destruct (n_mode n); congruence.
Qed.
Lemma add_factor_inv w l w' k : add_factor w l = Some (w', k) -> exists f, nth_error (w_factors w) l = Some f /\
  k = number_factors w /\ w_nodes w' = link_all (f_nodes f) l (w_nodes w) /\
  w_factors w' = upd (w_factors w) l (factor_set_id k) /\
  g_nodes (w_graph w') = g_nodes (w_graph w) /\ g_factors (w_graph w') = g_factors (w_graph w) ++ [l] /\
  g_eigen (w_graph w') = g_eigen (w_graph w) /\ g_obsDim (w_graph w') = g_obsDim (w_graph w) + f_dim f /\
  g_active (w_graph w') = g_active (w_graph w) /\ g_stateDim (w_graph w') = g_stateDim (w_graph w).
Proof.
  unfold add_factor. destruct (nth_error (w_factors w) l) as [n|] eqn:E; [|discriminate].
  intros H. injection H as <- <-. exists n. cbn. repeat split; auto.
Qed.
Lemma add_eigen_inv w l w' k : add_eigen_factor w l = Some (w', k) -> exists f, nth_error (w_factors w) l = Some f /\
  k = length (g_eigen (w_graph w)) /\ w_nodes w' = link_all (f_nodes f) l (w_nodes w) /\
  w_factors w' = upd (w_factors w) l (factor_set_id k) /\
  g_nodes (w_graph w') = g_nodes (w_graph w) /\ g_factors (w_graph w') = g_factors (w_graph w) /\
  g_eigen (w_graph w') = g_eigen (w_graph w) ++ [l] /\ g_obsDim (w_graph w') = g_obsDim (w_graph w) + f_dim f /\
  g_active (w_graph w') = g_active (w_graph w) /\ g_stateDim (w_graph w') = g_stateDim (w_graph w).
Proof.
  unfold add_eigen_factor. destruct (nth_error (w_factors w) l) as [n|] eqn:E; [|discriminate].
  intros H. injection H as <- <-. exists n. cbn. repeat split; auto.
Qed.
Lemma alloc_factor_inv w f w' : alloc_factor w f = Some w' ->
  Forall (fun l => l < length (w_nodes w)) (f_nodes f) /\
  w' = mkW (w_nodes w) (w_factors w ++ [f]) (w_graph w).
Proof.
  unfold alloc_factor. destruct (forallb _ _) eqn:E; [|discriminate]. intros H; injection H as <-.
  split; auto. rewrite forallb_forall in E. apply Forall_forall. intros x Hx. apply Nat.ltb_lt, E, Hx.
Qed.
Lemma rm_factor_inv w n f w' : rm_factor w n f = Some w' -> exists x l,
  nth_error (w_nodes w) n = Some x /\ erase_first f (n_factors x) = Some l /\
  w' = mkW (upd (w_nodes w) n (fun _ => mkNode (n_id x) (n_dim x) (n_mode x) l (n_data x))) (w_factors w) (w_graph w).
Proof.
  unfold rm_factor. destruct (nth_error (w_nodes w) n) as [x|] eqn:E; [|discriminate]. unfold node_rm_factor.
  destruct (erase_first f (n_factors x)) as [l|] eqn:E2; [|discriminate]. cbn. intros H; injection H as <-. eauto 6.
Qed.
Lemma set_mode_inv w n m w' : set_node_mode w n m = Some w' ->
  n < length (w_nodes w) /\ w' = mkW (upd (w_nodes w) n (node_set_mode m)) (w_factors w) (w_graph w).
Proof.
  unfold set_node_mode. destruct (Nat.ltb_spec n (length (w_nodes w))); [|discriminate]. intros H1; injection H1 as <-. auto.
Qed.
Lemma set_state_inv w n v w' : set_state w n v = Some w' -> exists x d,
  nth_error (w_nodes w) n = Some x /\ node_set_state (n_data x) v = Some d /\
  w' = mkW (upd (w_nodes w) n (node_set_data d)) (w_factors w) (w_graph w).
Proof.
  unfold set_state. destruct (nth_error (w_nodes w) n) as [x|] eqn:E; [|discriminate].
  destruct (node_set_state (n_data x) v) as [d|] eqn:E2; [|discriminate]. cbn. intros H; injection H as <-. eauto 6.
Qed.
Ltac gstep_inv H :=
  cbn [gstep] in H;
  lazymatch type of H with
  | Some _ = Some _ => injection H as <-
  | option_map fst (add_node ?w ?l) = _ =>
      let E := fresh "E" in destruct (add_node w l) as [[?w ?k]|] eqn:E in H; [|discriminate H]; injection H as <-;
      apply add_node_inv in E; destruct E as (?n & ?Hn & ?Hk & ?Wn & ?Wf & ?Gn & ?Gf & ?Ge & ?Go & ?Ga & ?Gb)
  | option_map fst (add_factor ?w ?l) = _ =>
      let E := fresh "E" in destruct (add_factor w l) as [[?w ?k]|] eqn:E in H; [|discriminate H]; injection H as <-;
      apply add_factor_inv in E; destruct E as (?f & ?Hf & ?Hk & ?Wn & ?Wf & ?Gn & ?Gf & ?Ge & ?Go & ?Ga & ?Gs)
  | option_map fst (add_eigen_factor ?w ?l) = _ =>
      let E := fresh "E" in destruct (add_eigen_factor w l) as [[?w ?k]|] eqn:E in H; [|discriminate H]; injection H as <-;
      apply add_eigen_inv in E; destruct E as (?f & ?Hf & ?Hk & ?Wn & ?Wf & ?Gn & ?Gf & ?Ge & ?Go & ?Ga & ?Gs)
  | alloc_factor _ _ = _ => apply alloc_factor_inv in H; destruct H as [?Hall ->]
  | rm_factor _ _ _ = _ => apply rm_factor_inv in H; destruct H as (?x & ?l & ?Hx & ?Hl & ->)
  | set_node_mode _ _ _ = _ => apply set_mode_inv in H; destruct H as [?Hlt ->]
  | set_state _ _ _ = _ => apply set_state_inv in H; destruct H as (?x & ?d & ?Hx & ?Hd & ->)
  end.

(** ** containers are the histories *)
Lemma containers ops w : grun world_new ops = Some w ->
  g_nodes (w_graph w) = added_nodes ops /\ g_factors (w_graph w) = added_factors ops /\
  g_eigen (w_graph w) = added_eigen ops.
Proof.
  revert ops w. apply (grun_ind (fun ops w => g_nodes (w_graph w) = added_nodes ops /\
    g_factors (w_graph w) = added_factors ops /\ g_eigen (w_graph w) = added_eigen ops)); [cbn; auto|].
  intros ops w o w' _ (A & B & C) H. rewrite added_nodes_app, added_factors_app, added_eigen_app, <- A, <- B, <- C.
  destruct o; gstep_inv H; cbn; rewrite ?app_nil_r; auto; rewrite ?Gn, ?Gf, ?Ge; auto.
Qed.

(** ** ids *)
Lemma nth_error_snoc {A} (l : list A) x k : nth_error (l ++ [x]) k =
  if k <? length l then nth_error l k else if k =? length l then Some x else None.
Proof.
  destruct (Nat.ltb_spec k (length l)).
  - apply nth_error_app1; auto.
  - rewrite nth_error_app2 by auto. destruct (Nat.eqb_spec k (length l)).
    + subst. rewrite Nat.sub_diag. reflexivity.
    + destruct (k - length l) eqn:E; [lia|]. destruct n0; auto.
Qed.
(** [l] is at position [k] and at no later one *)
Definition last_at (s : list loc) (l : loc) (k : nat) : Prop :=
  nth_error s k = Some l /\ forall j, nth_error s j = Some l -> j <= k.
Lemma last_at_snoc_eq s l : last_at (s ++ [l]) l (length s).
Proof.
  split.
  - rewrite nth_error_snoc, Nat.ltb_irrefl, Nat.eqb_refl. reflexivity.
  - intros j H. assert (nth_error (s ++ [l]) j <> None) by congruence. apply nth_error_Some in H0.
    rewrite app_length in H0. cbn in H0. lia.
Qed.
Lemma last_at_snoc_neq s l l' k : l' <> l -> last_at s l k -> last_at (s ++ [l']) l k.
Proof.
  intros N [A B]. assert (K : k < length s) by (apply nth_error_Some; congruence). split.
  - rewrite nth_error_app1; auto.
  - intros j. rewrite nth_error_snoc. destruct (j <? length s); [apply B|].
    destruct (j =? length s); congruence.
Qed.

Lemma node_ids ops w : grun world_new ops = Some w ->
  forall l n, nth_error (w_nodes w) l = Some n -> In l (g_nodes (w_graph w)) -> last_at (g_nodes (w_graph w)) l (n_id n).
Proof.
  revert ops w.
  apply (grun_ind (fun ops w => forall l n, nth_error (w_nodes w) l = Some n -> In l (g_nodes (w_graph w)) ->
    last_at (g_nodes (w_graph w)) l (n_id n))).
  { cbn. tauto. }
  intros ops w o w' R IH H l0 n0.
  assert (G : forall l, In l (g_nodes (w_graph w)) -> l < length (w_nodes w)).
  { clear -R. revert ops w R. apply (grun_ind (fun ops w => forall l, In l (g_nodes (w_graph w)) -> l < length (w_nodes w))).
    - cbn; tauto.
    - intros ops w o w' _ IH H l. destruct o; gstep_inv H; cbn; rewrite ?app_length, ?upd_length; auto.
      + intros Hl. specialize (IH _ Hl). lia.
      + rewrite Gn, Wn, upd_length, in_app_iff. intros [Hl|[<-|[]]]; auto. apply nth_error_Some. congruence.
      + rewrite Gn, Wn, link_all_length. auto.
      + rewrite Gn, Wn, link_all_length. auto. }
  destruct o; gstep_inv H; cbn; try (intros A B; apply IH; auto; fail).
  - intros A B. apply IH; auto. rewrite nth_error_app1 in A; auto.
  - rewrite Wn, Gn, upd_nth. destruct (Nat.eqb_spec l0 l) as [->|N].
    + intros A _. rewrite Hn in A. injection A as <-. cbn. subst. apply last_at_snoc_eq.
    + rewrite in_app_iff. intros A [B|[B|[]]]; [|congruence]. apply last_at_snoc_neq; auto.
  - rewrite Wn, Gn, link_all_nth. destruct (nth_error (w_nodes w) l0) as [n|] eqn:E; [|discriminate].
    intros A B. injection A as <-. cbn. apply IH; auto.
  - rewrite Wn, Gn, link_all_nth. destruct (nth_error (w_nodes w) l0) as [n|] eqn:E; [|discriminate].
    intros A B. injection A as <-. cbn. apply IH; auto.
  - rewrite upd_nth. destruct (Nat.eqb_spec l0 n) as [->|N]; auto. rewrite Hx. cbn. intros A B. injection A as <-. cbn. apply IH; auto.
  - rewrite upd_nth. destruct (Nat.eqb_spec l0 n) as [->|N]; auto.
    destruct (nth_error (w_nodes w) n) as [x|] eqn:E; [|discriminate]. cbn. intros A B. injection A as <-. cbn. apply IH; auto.
  - rewrite upd_nth. destruct (Nat.eqb_spec l0 n) as [->|N]; auto. rewrite Hx. cbn. intros A B. injection A as <-. cbn. apply IH; auto.
Qed.
Lemma factor_locs ops w : grun world_new ops = Some w ->
  forall l, In l (g_factors (w_graph w)) \/ In l (g_eigen (w_graph w)) -> l < length (w_factors w).
Proof.
  revert ops w. apply (grun_ind (fun ops w => forall l, In l (g_factors (w_graph w)) \/ In l (g_eigen (w_graph w)) -> l < length (w_factors w))).
  - cbn; tauto.
  - intros ops w o w' _ IH H l0. destruct o; gstep_inv H; cbn; rewrite ?app_length, ?upd_length; auto.
    + intros Hl. specialize (IH _ Hl). lia.
    + rewrite Gf, Ge, Wf; auto.
    + rewrite Gf, Ge, Wf, upd_length, in_app_iff. intros [[Hl|[<-|[]]]|Hl]; auto. apply nth_error_Some. congruence.
    + rewrite Gf, Ge, Wf, upd_length, in_app_iff. intros [Hl|[Hl|[<-|[]]]]; auto. apply nth_error_Some. congruence.
Qed.
Lemma factor_ids ops w : grun world_new ops = Some w ->
  forall l f, nth_error (w_factors w) l = Some f -> ~ In l (g_eigen (w_graph w)) -> In l (g_factors (w_graph w)) ->
  last_at (g_factors (w_graph w)) l (f_id f).
Proof.
  revert ops w.
  apply (grun_ind (fun ops w => forall l f, nth_error (w_factors w) l = Some f -> ~ In l (g_eigen (w_graph w)) ->
    In l (g_factors (w_graph w)) -> last_at (g_factors (w_graph w)) l (f_id f))).
  { cbn. tauto. }
  intros ops w o w' R IH H l0 n0. pose proof (factor_locs _ _ R) as G.
  destruct o; gstep_inv H; cbn; try (intros A B; apply IH; auto; fail).
  - intros A B C. apply IH; auto. rewrite nth_error_app1 in A; auto.
  - rewrite Wf, Gf, Ge. apply IH; auto.
  - rewrite Wf, Gf, Ge, upd_nth. destruct (Nat.eqb_spec l0 l) as [->|N].
    + intros A _ _. rewrite Hf in A. injection A as <-. cbn. subst. apply last_at_snoc_eq.
    + rewrite in_app_iff. intros A C [B|[B|[]]]; [|congruence]. apply last_at_snoc_neq; auto.
  - rewrite Wf, Gf, Ge, upd_nth, in_app_iff. destruct (Nat.eqb_spec l0 l) as [->|N].
    + intros _ C. exfalso. apply C. cbn; auto.
    + intros A C B. apply IH; auto.
Qed.

(** ** dimensions *)
Definition dim_at (w : world) (l : loc) : nat := match nth_error (w_nodes w) l with Some n => n_dim n | None => 0 end.
Definition fdim_at (w : world) (l : loc) : nat := match nth_error (w_factors w) l with Some f => f_dim f | None => 0 end.
Definition std_at (w : world) (l : loc) : bool :=
  match nth_error (w_nodes w) l with Some n => match n_mode n with STANDARD => true | _ => false end | None => false end.
Fixpoint lsumn (l : list nat) : nat := match l with [] => 0 | x :: r => x + lsumn r end.
Lemma lsumn_app a b : lsumn (a ++ b) = lsumn a + lsumn b.
Proof. induction a; cbn; auto. rewrite IHa. lia. Qed.
Definition no_mode_change (o : gop) : Prop := match o with OSetMode _ _ => False | _ => True end.

(** what never changes about a location *)
Definition same_shape (w w' : world) : Prop :=
  (forall l n, nth_error (w_nodes w) l = Some n -> exists n', nth_error (w_nodes w') l = Some n' /\ n_dim n' = n_dim n) /\
  (forall l f, nth_error (w_factors w) l = Some f -> exists f', nth_error (w_factors w') l = Some f' /\
     f_dim f' = f_dim f /\ f_nodes f' = f_nodes f /\ f_res f' = f_res f /\ f_jac f' = f_jac f /\ f_info f' = f_info f /\ f_rob f' = f_rob f).
Lemma same_shape_refl w : same_shape w w.
Proof. split; intros; eauto 10. Qed.
Lemma gstep_shape w o w' : gstep w o = Some w' -> same_shape w w'.
Proof.
  intros H; split; intros l0 n0 E0; destruct o; gstep_inv H; cbn; rewrite ?Wn, ?Wf; eauto 10;
  rewrite ?upd_nth, ?link_all_nth;
  try (rewrite nth_error_app1 by (apply nth_error_Some; congruence); eauto 10);
  try match goal with |- context[Nat.eqb ?a ?b] => destruct (Nat.eqb_spec a b); [subst|]; rewrite ?E0; cbn; eauto 10 end;
  rewrite ?E0; cbn; eauto 10.
  match goal with A : nth_error ?h ?l = Some ?a, B : nth_error ?h ?l = Some ?b |- _ => rewrite A in B; injection B as -> end; eauto.
Qed.
Lemma gstep_mode w o w' : no_mode_change o -> gstep w o = Some w' ->
  forall l n, nth_error (w_nodes w) l = Some n -> exists n', nth_error (w_nodes w') l = Some n' /\ n_mode n' = n_mode n.
Proof.
  intros N H l0 n0 E0; destruct o; try (destruct N; fail); gstep_inv H; cbn; rewrite ?Wn, ?Wf; eauto 10;
  rewrite ?upd_nth, ?link_all_nth;
  try (rewrite nth_error_app1 by (apply nth_error_Some; congruence); eauto 10);
  try match goal with |- context[Nat.eqb ?a ?b] => destruct (Nat.eqb_spec a b); [subst|]; rewrite ?E0; cbn; eauto 10 end;
  rewrite ?E0; cbn; eauto 10.
  match goal with A : nth_error ?h ?l = Some ?a, B : nth_error ?h ?l = Some ?b |- _ => rewrite A in B; injection B as -> end; eauto.
Qed.
Lemma active_in ops w : grun world_new ops = Some w ->
  (forall l, In l (g_active (w_graph w)) -> In l (g_nodes (w_graph w))) /\
  (forall l, In l (g_nodes (w_graph w)) -> l < length (w_nodes w)).
Proof.
  revert ops w. apply (grun_ind (fun ops w => (forall l, In l (g_active (w_graph w)) -> In l (g_nodes (w_graph w))) /\
    (forall l, In l (g_nodes (w_graph w)) -> l < length (w_nodes w)))).
  - cbn; tauto.
  - intros ops w o w' _ [I1 I2] H. destruct o; gstep_inv H; cbn; rewrite ?app_length, ?upd_length; auto.
    + split; auto. intros l Hl. specialize (I2 _ Hl). lia.
    + rewrite Gn, Wn, upd_length. split.
      * intros l0. destruct (n_mode n) eqn:M.
        2,3: destruct (Gb ltac:(congruence)) as [-> _]; rewrite in_app_iff; auto.
        destruct (Ga eq_refl) as [-> _]. rewrite !in_app_iff. intros [A|A]; auto.
      * intros l0. rewrite in_app_iff. intros [Hl|[<-|[]]]; auto. apply nth_error_Some. congruence.
    + rewrite Ga, Gn, Wn, link_all_length; auto.
    + rewrite Ga, Gn, Wn, link_all_length; auto.
Qed.
Lemma dims ops w : grun world_new ops = Some w ->
  get_dimension_state w = lsumn (map (dim_at w) (g_active (w_graph w))) /\
  get_dimension_obs w = lsumn (map (fdim_at w) (g_factors (w_graph w))) + lsumn (map (fdim_at w) (g_eigen (w_graph w))).
Proof.
  unfold get_dimension_state, get_dimension_obs. revert ops w.
  apply (grun_ind (fun ops w => g_stateDim (w_graph w) = lsumn (map (dim_at w) (g_active (w_graph w))) /\
    g_obsDim (w_graph w) = lsumn (map (fdim_at w) (g_factors (w_graph w))) + lsumn (map (fdim_at w) (g_eigen (w_graph w))))).
  { cbn; auto. }
  intros ops w o w' R [I1 I2] H. pose proof (gstep_shape _ _ _ H) as [S1 S2].
  pose proof (active_in _ _ R) as [A1 A2]. pose proof (factor_locs _ _ R) as F1.
  assert (D : forall l, In l (g_active (w_graph w)) -> dim_at w' l = dim_at w l).
  { intros l Hl. apply A1, A2 in Hl. apply nth_error_Some in Hl. unfold dim_at.
    destruct (nth_error (w_nodes w) l) as [n|] eqn:E; [|congruence]. destruct (S1 _ _ E) as (n' & -> & ->). reflexivity. }
  assert (DF : forall l, In l (g_factors (w_graph w)) \/ In l (g_eigen (w_graph w)) -> fdim_at w' l = fdim_at w l).
  { intros l Hl. apply F1 in Hl. apply nth_error_Some in Hl. unfold fdim_at.
    destruct (nth_error (w_factors w) l) as [n|] eqn:E; [|congruence]. destruct (S2 _ _ E) as (n' & -> & -> & _). reflexivity. }
  assert (E1 : map (dim_at w') (g_active (w_graph w)) = map (dim_at w) (g_active (w_graph w))) by (apply map_ext_in; auto).
  assert (E2 : map (fdim_at w') (g_factors (w_graph w)) = map (fdim_at w) (g_factors (w_graph w))) by (apply map_ext_in; auto).
  assert (E3 : map (fdim_at w') (g_eigen (w_graph w)) = map (fdim_at w) (g_eigen (w_graph w))) by (apply map_ext_in; auto).
  destruct o; gstep_inv H; cbn [w_graph] in *; try (rewrite E1, E2, E3; auto; fail).
  - cbn [alloc_node w_graph] in *. rewrite E1, E2, E3; auto.
  - rewrite Gf, Ge, E2, E3, Go. split; auto. destruct (n_mode n) eqn:M.
    2,3: destruct (Gb ltac:(congruence)) as [-> ->]; rewrite E1; auto.
    destruct (Ga eq_refl) as [-> ->]. rewrite map_app, lsumn_app, E1, <- I1. cbn. f_equal. unfold dim_at.
    destruct (S1 _ _ Hn) as (n' & -> & ->). lia.
  - rewrite Gf, Ge, Ga, Gs, Go, map_app, lsumn_app, E1, E2, E3. split; auto. rewrite I2. cbn.
    destruct (S2 _ _ Hf) as (n' & H1 & H2 & _). assert (FE : fdim_at w0 l = f_dim f) by (unfold fdim_at; rewrite H1; auto). rewrite FE. lia.
  - rewrite Gf, Ge, Ga, Gs, Go, map_app, lsumn_app, E1, E2, E3. split; auto. rewrite I2. cbn.
    destruct (S2 _ _ Hf) as (n' & H1 & H2 & _). assert (FE : fdim_at w0 l = f_dim f) by (unfold fdim_at; rewrite H1; auto). rewrite FE. lia.
Qed.
Lemma active_std ops w : Forall no_mode_change ops -> grun world_new ops = Some w ->
  g_active (w_graph w) = filter (std_at w) (g_nodes (w_graph w)).
Proof.
  intros F H. revert F. revert ops w H.
  apply (grun_ind (fun ops w => Forall no_mode_change ops -> g_active (w_graph w) = filter (std_at w) (g_nodes (w_graph w)))).
  { auto. }
  intros ops w o w' R IH H F. apply Forall_app in F. destruct F as [F1 F2]. specialize (IH F1). inversion F2 as [|? ? No _]; subst.
  pose proof (gstep_mode _ _ _ No H) as S1. pose proof (active_in _ _ R) as [_ A2].
  assert (D : filter (std_at w') (g_nodes (w_graph w)) = filter (std_at w) (g_nodes (w_graph w))).
  { apply filter_ext_in. intros l Hl. apply A2 in Hl. apply nth_error_Some in Hl. unfold std_at.
    destruct (nth_error (w_nodes w) l) as [n|] eqn:E; [|congruence]. destruct (S1 _ _ E) as (n' & -> & ->). reflexivity. }
  destruct o; try (destruct No; fail); gstep_inv H; cbn [w_graph alloc_node] in *; try (rewrite D; auto; fail).
  - rewrite Gn, filter_app, D, <- IH. cbn.
    assert (E : std_at w0 l = match n_mode n with STANDARD => true | _ => false end).
    { unfold std_at. destruct (S1 _ _ Hn) as (n' & -> & ->). reflexivity. }
    rewrite E. destruct (n_mode n) eqn:M. 1: destruct (Ga eq_refl) as [-> _]; auto.
    all: destruct (Gb ltac:(congruence)) as [-> _]; rewrite app_nil_r; auto.
  - rewrite Ga, Gn, D; auto.
  - rewrite Ga, Gn, D; auto.
Qed.

(** ** adjacency *)
Notation cnt := (count_occ Nat.eq_dec).
Lemma cnt_repeat f k x : cnt (repeat f k) x = if Nat.eqb f x then k else 0.
Proof.
  induction k; cbn -[Nat.eq_dec]. { destruct (Nat.eqb f x); auto. }
  rewrite IHk. destruct (Nat.eq_dec f x) as [->|N]; [rewrite Nat.eqb_refl; auto|]. destruct (Nat.eqb_spec f x); congruence.
Qed.
Lemma erase_first_spec f l :
  match erase_first f l with
  | Some r => exists a b, l = a ++ f :: b /\ ~ In f a /\ r = a ++ b
  | None => ~ In f l
  end.
Proof.
  induction l as [|x l IH]; cbn; auto. destruct (Nat.eqb_spec x f) as [->|N].
  - exists [], l. auto.
  - destruct (erase_first f l) as [r|]; cbn.
    + destruct IH as (a & b & -> & Na & ->). exists (x :: a), b. cbn. repeat split; auto. intros [E|E]; auto.
    + intros [E|E]; auto.
Qed.
Lemma erase_first_cnt f l r x : erase_first f l = Some r -> cnt l x = cnt r x + (if Nat.eqb f x then 1 else 0).
Proof.
  intros H. pose proof (erase_first_spec f l) as S. rewrite H in S. destruct S as (a & b & -> & _ & ->).
  rewrite !count_occ_app. cbn -[Nat.eq_dec]. destruct (Nat.eq_dec f x) as [->|N]; [rewrite Nat.eqb_refl; lia|].
  destruct (Nat.eqb_spec f x); [congruence|lia].
Qed.
Definition neigh_at (w : world) (l : loc) : list loc := match nth_error (w_factors w) l with Some f => f_nodes f | None => [] end.
Definition listed_at (w : world) (l : loc) : list loc := match nth_error (w_nodes w) l with Some n => n_factors n | None => [] end.

Lemma neigh_valid ops w : grun world_new ops = Some w -> forall l f, nth_error (w_factors w) l = Some f ->
  Forall (fun n => n < length (w_nodes w)) (f_nodes f).
Proof.
  revert ops w. apply (grun_ind (fun ops w => forall l f, nth_error (w_factors w) l = Some f ->
    Forall (fun n => n < length (w_nodes w)) (f_nodes f))).
  { intros [|l]; discriminate. }
  intros ops w o w' R IH H l0 f0.
  destruct o; gstep_inv H; cbn; rewrite ?Wn, ?Wf, ?upd_length, ?link_all_length; eauto.
  - intros E. eapply Forall_impl; [|eapply IH; eauto]. cbn. intros. rewrite app_length. lia.
  - rewrite nth_error_snoc. destruct (l0 <? _); eauto. destruct (l0 =? _); [|discriminate]. intros E; injection E as <-. exact Hall.
  - rewrite upd_nth. destruct (l0 =? l); eauto. destruct (nth_error (w_factors w) l0) eqn:E0; [|discriminate]. cbn.
    intros E; injection E as <-. cbn. eauto.
  - rewrite upd_nth. destruct (l0 =? l); eauto. destruct (nth_error (w_factors w) l0) eqn:E0; [|discriminate]. cbn.
    intros E; injection E as <-. cbn. eauto.
Qed.
(** the exact multiplicity of a factor in a node's list *)
Lemma adjacency ops w : grun world_new ops = Some w -> forall n f,
  cnt (listed_at w n) f + removed ops n f =
  (cnt (added_factors ops) f + cnt (added_eigen ops) f) * cnt (neigh_at w f) n.
Proof.
  revert ops w. apply (grun_ind (fun ops w => forall n f, cnt (listed_at w n) f + removed ops n f =
    (cnt (added_factors ops) f + cnt (added_eigen ops) f) * cnt (neigh_at w f) n)).
  { intros n f. unfold listed_at, neigh_at. cbn. destruct n; destruct f; cbn; auto. }
  intros ops w o w' R IH H n0 f0. specialize (IH n0 f0).
  rewrite removed_app, added_factors_app, added_eigen_app, !count_occ_app.
  pose proof (gstep_shape _ _ _ H) as [_ S2]. pose proof (containers _ _ R) as (_ & C2 & C3).
  assert (NG : neigh_at w' f0 = neigh_at w f0 \/ (nth_error (w_factors w) f0 = None /\ cnt (added_factors ops) f0 = 0 /\ cnt (added_eigen ops) f0 = 0)).
  { unfold neigh_at. destruct (nth_error (w_factors w) f0) as [f|] eqn:E.
    - destruct (S2 _ _ E) as (f' & -> & _ & -> & _). auto.
    - right. split; auto. rewrite <- C2, <- C3. apply nth_error_None in E.
      split; apply count_occ_not_In; intros I; apply (fun h => Nat.lt_irrefl _ (Nat.lt_le_trans _ _ _ (factor_locs _ _ R _ h) E)); auto. }
  assert (NG0 : (cnt (added_factors ops) f0 + cnt (added_eigen ops) f0) * cnt (neigh_at w' f0) n0 =
               (cnt (added_factors ops) f0 + cnt (added_eigen ops) f0) * cnt (neigh_at w f0) n0).
  { destruct NG as [->|(_ & -> & ->)]; auto. }
  destruct o.
  - gstep_inv H. cbn [added_factors added_eigen removed count_occ app]. rewrite !Nat.add_0_r, NG0, <- IH. f_equal. unfold listed_at; cbn [w_nodes alloc_node].
    rewrite nth_error_snoc. destruct (Nat.ltb_spec n0 (length (w_nodes w))) as [L|L].
    + reflexivity.
    + replace (nth_error (w_nodes w) n0) with (@None node) by (symmetry; apply nth_error_None; auto).
      destruct (n0 =? _); reflexivity.
  - gstep_inv H. cbn [added_factors added_eigen removed count_occ app]. rewrite !Nat.add_0_r, NG0, <- IH. reflexivity.
  - gstep_inv H. cbn [added_factors added_eigen removed count_occ app]. rewrite !Nat.add_0_r, NG0, <- IH. f_equal. unfold listed_at. rewrite Wn, upd_nth.
    destruct (n0 =? l); auto. destruct (nth_error (w_nodes w) n0); reflexivity.
  - gstep_inv H. destruct NG as [NG|(NG & _ & _)].
    + cbn [added_factors added_eigen removed count_occ app]. rewrite NG, !Nat.add_0_r.
      assert (E : cnt (listed_at w0 n0) f0 = cnt (listed_at w n0) f0 + (if Nat.eqb l f0 then cnt (neigh_at w f0) n0 else 0)).
      { unfold listed_at. rewrite Wn, link_all_nth. destruct (nth_error (w_nodes w) n0) as [x|] eqn:Ex; cbn.
        - rewrite count_occ_app, cnt_repeat. destruct (Nat.eqb_spec l f0) as [->|]; auto. unfold neigh_at. rewrite Hf. reflexivity.
        - destruct (Nat.eqb_spec l f0) as [->|]; auto. unfold neigh_at. rewrite Hf. symmetry. apply count_occ_not_In. intros I.
          pose proof (neigh_valid _ _ R _ _ Hf) as V. rewrite Forall_forall in V. apply V in I. apply nth_error_None in Ex. lia. }
      rewrite E. destruct (Nat.eq_dec l f0) as [->|N].
      * rewrite Nat.eqb_refl. lia.
      * destruct (Nat.eqb_spec l f0); [congruence|]. lia.
    + assert (N : l <> f0) by congruence. cbn [added_factors added_eigen removed count_occ app]. destruct (Nat.eq_dec l f0); [congruence|].
      rewrite !Nat.add_0_r, NG0, <- IH. f_equal. unfold listed_at. rewrite Wn, link_all_nth.
      destruct (nth_error (w_nodes w) n0) as [x|] eqn:Ex; cbn; auto. rewrite count_occ_app, cnt_repeat.
      destruct (Nat.eqb_spec l f0); [congruence|]. lia.
  - gstep_inv H. destruct NG as [NG|(NG & _ & _)].
    + cbn [added_factors added_eigen removed count_occ app]. rewrite NG, !Nat.add_0_r.
      assert (E : cnt (listed_at w0 n0) f0 = cnt (listed_at w n0) f0 + (if Nat.eqb l f0 then cnt (neigh_at w f0) n0 else 0)).
      { unfold listed_at. rewrite Wn, link_all_nth. destruct (nth_error (w_nodes w) n0) as [x|] eqn:Ex; cbn.
        - rewrite count_occ_app, cnt_repeat. destruct (Nat.eqb_spec l f0) as [->|]; auto. unfold neigh_at. rewrite Hf. reflexivity.
        - destruct (Nat.eqb_spec l f0) as [->|]; auto. unfold neigh_at. rewrite Hf. symmetry. apply count_occ_not_In. intros I.
          pose proof (neigh_valid _ _ R _ _ Hf) as V. rewrite Forall_forall in V. apply V in I. apply nth_error_None in Ex. lia. }
      rewrite E. destruct (Nat.eq_dec l f0) as [->|N].
      * rewrite Nat.eqb_refl. lia.
      * destruct (Nat.eqb_spec l f0); [congruence|]. lia.
    + assert (N : l <> f0) by congruence. cbn [added_factors added_eigen removed count_occ app]. destruct (Nat.eq_dec l f0); [congruence|].
      rewrite !Nat.add_0_r, NG0, <- IH. f_equal. unfold listed_at. rewrite Wn, link_all_nth.
      destruct (nth_error (w_nodes w) n0) as [x|] eqn:Ex; cbn; auto. rewrite count_occ_app, cnt_repeat.
      destruct (Nat.eqb_spec l f0); [congruence|]. lia.
  - gstep_inv H. cbn [added_factors added_eigen removed count_occ app]. rewrite !Nat.add_0_r, NG0, <- IH.
    assert (E : cnt (listed_at w n0) f0 = cnt (listed_at (mkW (upd (w_nodes w) n (fun _ => mkNode (n_id x) (n_dim x) (n_mode x) l (n_data x))) (w_factors w) (w_graph w)) n0) f0
       + (if andb (n0 =? n) (f0 =? f) then 1 else 0)).
    { unfold listed_at; cbn [w_nodes]. rewrite upd_nth. destruct (Nat.eqb_spec n0 n) as [->|]; cbn -[Nat.eq_dec Nat.eqb]; [|lia].
      rewrite Hx. cbn -[Nat.eq_dec Nat.eqb]. rewrite (erase_first_cnt _ _ _ f0 Hl). rewrite (Nat.eqb_sym f f0). reflexivity. }
    rewrite E. lia.
  - gstep_inv H. cbn [added_factors added_eigen removed count_occ app]. rewrite !Nat.add_0_r, NG0, <- IH. f_equal. unfold listed_at; cbn [w_nodes]. rewrite upd_nth.
    destruct (n0 =? n); auto. destruct (nth_error (w_nodes w) n0); reflexivity.
  - gstep_inv H. cbn [added_factors added_eigen removed count_occ app]. rewrite !Nat.add_0_r, NG0, <- IH. f_equal. unfold listed_at; cbn [w_nodes]. rewrite upd_nth.
    destruct (n0 =? n); auto. destruct (nth_error (w_nodes w) n0); reflexivity.
Qed.

(** ** corollaries *)
Lemma last_at_nodup s l k j : NoDup s -> last_at s l k -> nth_error s j = Some l -> j = k.
Proof.
  intros N [A _] B. eapply (proj1 (NoDup_nth_error s) N).
  - apply nth_error_Some. congruence.
  - congruence.
Qed.
Lemma last_at_unique s l k j : last_at s l k -> last_at s l j -> j = k.
Proof. intros [A B] [C D]. apply B in C. apply D in A. lia. Qed.

(** ** destructor *)
Lemma destroy_nth w l : nth_error (w_nodes (graph_destroy w)) l =
  if existsb (Nat.eqb l) (g_nodes (w_graph w)) then option_map node_clear (nth_error (w_nodes w) l) else nth_error (w_nodes w) l.
Proof.
  unfold graph_destroy; cbn [w_nodes]. generalize (g_nodes (w_graph w)) as s. generalize (w_nodes w) as h.
  intros h s. revert h. induction s as [|a s IH]; intros h; cbn; auto.
  rewrite IH, upd_nth. destruct (Nat.eqb_spec l a) as [->|N]; cbn; auto.
  destruct (existsb (Nat.eqb a) s); auto. destruct (nth_error h a); auto.
Qed.
Lemma destroy_listed w l : listed_at (graph_destroy w) l =
  if in_dec Nat.eq_dec l (g_nodes (w_graph w)) then [] else listed_at w l.
Proof.
  unfold listed_at. rewrite destroy_nth. destruct (in_dec Nat.eq_dec l (g_nodes (w_graph w))) as [I|N].
  - replace (existsb (Nat.eqb l) (g_nodes (w_graph w))) with true.
    + destruct (nth_error (w_nodes w) l); reflexivity.
    + symmetry. apply existsb_exists. exists l. split; auto. apply Nat.eqb_refl.
  - replace (existsb (Nat.eqb l) (g_nodes (w_graph w))) with false; auto.
    symmetry. apply not_true_is_false. intros E. apply existsb_exists in E. destruct E as (x & I & E). apply Nat.eqb_eq in E. congruence.
Qed.
Definition no_rm (o : gop) : Prop := match o with ORmFactor _ _ => False | _ => True end.
Lemma no_rm_removed ops n f : Forall no_rm ops -> removed ops n f = 0.
Proof. induction 1 as [|o ops H F IH]; cbn; auto. destruct o; auto. destruct H. Qed.
