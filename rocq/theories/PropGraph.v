(** Property theorems C27-C31, C64 (containers of the factor graph). *)
Require Import Reals List Arith Lia.
From Verif Require Import Lin Nodes Robust Graph GraphProofs.
Import ListNotations.
Local Open Scope nat_scope.

(** a concrete program: two nodes (one anchored), one binary and one unary factor *)
Definition res0 : list nval -> nat -> R := fun _ _ => 0%R.
Definition jac0 : list nval -> nat -> nat -> R := fun _ _ _ => 0%R.
Definition info0 : nat -> nat -> R := fun _ _ => 0%R.
Definition v_a := P2 (mkV3 1 2 3).
Definition v_b := L2 5 6.
Definition prog : list gop :=
  [ONewNode STANDARD v_a; ONewNode ANCHOR v_b; OAddNode 1; OAddNode 0;
   ONewFactor 2 5 [0; 1] res0 jac0 info0 QUADRATIC; OAddFactor 0;
   ONewFactor 3 3 [0] res0 jac0 info0 HUBER; OAddFactor 1].
Definition prog_world : world :=
  match grun world_new prog with Some w => w | None => world_new end.
Lemma prog_runs : grun world_new prog = Some prog_world.
Proof. reflexivity. Qed.

(** ** C27 *)
Theorem C27_ids : forall ops w, grun world_new ops = Some w ->
  number_nodes w = length (added_nodes ops) /\ number_factors w = length (added_factors ops) /\
  (forall k, get_node w k = nth_error (added_nodes ops) k) /\
  (forall k, get_factor w k = nth_error (added_factors ops) k) /\
  (NoDup (added_nodes ops) -> forall k l, get_node w k = Some l ->
     exists n, nth_error (w_nodes w) l = Some n /\ n_id n = k) /\
  (NoDup (added_factors ops) -> forall k l, get_factor w k = Some l -> ~ In l (added_eigen ops) ->
     exists f, nth_error (w_factors w) l = Some f /\ f_id f = k).
Proof.
  intros ops w H. pose proof (containers _ _ H) as (A & B & C).
  unfold number_nodes, number_factors, get_node, get_factor. rewrite A, B. repeat split; auto.
  - intros N k l E. pose proof (active_in _ _ H) as [_ V].
    assert (I : In l (g_nodes (w_graph w))) by (rewrite A; eapply nth_error_In; eauto).
    destruct (nth_error (w_nodes w) l) as [n|] eqn:En.
    2:{ apply nth_error_None in En. specialize (V _ I). lia. }
    exists n. split; auto. symmetry. pose proof (node_ids _ _ H _ _ En I) as L. rewrite A in L.
    eapply last_at_nodup; eauto.
  - intros N k l E NE. pose proof (factor_locs _ _ H) as V.
    assert (I : In l (g_factors (w_graph w))) by (rewrite B; eapply nth_error_In; eauto).
    destruct (nth_error (w_factors w) l) as [f|] eqn:En.
    2:{ apply nth_error_None in En. specialize (V l (or_introl I)). lia. }
    exists f. split; auto. symmetry. rewrite <- C in NE. pose proof (factor_ids _ _ H _ _ En NE I) as L. rewrite B in L.
    eapply last_at_nodup; eauto.
Qed.
Print Assumptions C27_ids.
(** without the freshness hypothesis: the id of a node is the last position at which it was added *)
Theorem C27_last_id : forall ops w, grun world_new ops = Some w ->
  forall l n, nth_error (w_nodes w) l = Some n -> In l (added_nodes ops) -> last_at (added_nodes ops) l (n_id n).
Proof.
  intros ops w H l n E I. pose proof (containers _ _ H) as (A & B & C). rewrite <- A in *. eapply node_ids; eauto.
Qed.
Print Assumptions C27_last_id.
(** the returned id is the position *)
Theorem C27_returned_id : forall w l w' k, add_node w l = Some (w', k) ->
  get_node w' k = Some l /\ number_nodes w' = S k /\ (forall j, j < k -> get_node w' j = get_node w j).
Proof.
  intros w l w' k H. apply add_node_inv in H. destruct H as (n & Hn & -> & _ & _ & G & _).
  unfold get_node, number_nodes in *. rewrite G, nth_error_snoc, Nat.ltb_irrefl, Nat.eqb_refl, app_length. cbn.
  repeat split; try lia. intros j L. rewrite nth_error_app1; auto.
Qed.
Print Assumptions C27_returned_id.
Theorem C27_returned_factor_id : forall w l w' k, add_factor w l = Some (w', k) ->
  get_factor w' k = Some l /\ number_factors w' = S k /\ (forall j, j < k -> get_factor w' j = get_factor w j).
Proof.
  intros w l w' k H. apply add_factor_inv in H. destruct H as (n & Hn & -> & _ & _ & _ & G & _).
  unfold get_factor, number_factors in *. rewrite G, nth_error_snoc, Nat.ltb_irrefl, Nat.eqb_refl, app_length. cbn.
  repeat split; try lia. intros j L. rewrite nth_error_app1; auto.
Qed.
Print Assumptions C27_returned_factor_id.
Example C27_example : NoDup (added_nodes prog) /\ get_node prog_world 0 = Some 1 /\ get_node prog_world 1 = Some 0 /\
  number_factors prog_world = 2 /\ ~ In 1 (added_eigen prog).
Proof.
  repeat split; cbn; auto; try tauto. constructor; [cbn; intuition discriminate|]. constructor; [tauto | constructor].
Qed.

(** ** C28 *)
Theorem C28_dimensions : forall ops w, grun world_new ops = Some w ->
  get_dimension_state w = lsumn (map (dim_at w) (g_active (w_graph w))) /\
  get_dimension_obs w = lsumn (map (fdim_at w) (added_factors ops)) + lsumn (map (fdim_at w) (added_eigen ops)) /\
  (Forall no_mode_change ops -> g_active (w_graph w) = filter (std_at w) (added_nodes ops)).
Proof.
  intros ops w H. pose proof (containers _ _ H) as (A & B & C). rewrite <- A, <- B, <- C.
  destruct (dims _ _ H). repeat split; auto. intros F. eapply active_std; eauto.
Qed.
Print Assumptions C28_dimensions.
(** an eigen factor, which has no residual rows, is counted in the dimension of the observations *)
Theorem C28_eigen_counted_refuted : exists ops w, grun world_new ops = Some w /\
  get_dimension_obs w <> lsumn (map (fdim_at w) (added_factors ops)).
Proof.
  exists [ONewFactor 1 0 [] res0 jac0 info0 QUADRATIC; OAddEigen 0]. eexists. split; [reflexivity|]. cbn. lia.
Qed.
Print Assumptions C28_eigen_counted_refuted.
Example C28_example : Forall no_mode_change prog /\ get_dimension_state prog_world = 3 /\ get_dimension_obs prog_world = 5.
Proof. repeat split. repeat constructor. Qed.

(** ** C29 *)
Theorem C29_adjacency : forall ops w, grun world_new ops = Some w -> forall n f,
  cnt (listed_at w n) f + removed ops n f =
  (cnt (added_factors ops) f + cnt (added_eigen ops) f) * cnt (neigh_at w f) n.
Proof. exact adjacency. Qed.
Print Assumptions C29_adjacency.
(** every factor added once and never removed: equal multiplicities both ways *)
Theorem C29_adjacency_fresh : forall ops w, grun world_new ops = Some w -> Forall no_rm ops ->
  NoDup (added_factors ops ++ added_eigen ops) -> forall n f,
  (In f (added_factors ops ++ added_eigen ops) -> cnt (listed_at w n) f = cnt (neigh_at w f) n) /\
  (~ In f (added_factors ops ++ added_eigen ops) -> ~ In f (listed_at w n)).
Proof.
  intros ops w H F N n f. pose proof (adjacency _ _ H n f) as E. rewrite no_rm_removed in E by auto.
  rewrite <- count_occ_app in E. split; intros I.
  - rewrite (NoDup_count_occ' Nat.eq_dec) in N. rewrite (N f I) in E. lia.
  - rewrite (count_occ_not_In Nat.eq_dec) in I. rewrite I in E. apply (count_occ_not_In Nat.eq_dec). lia.
Qed.
Print Assumptions C29_adjacency_fresh.
Example C29_example : Forall no_rm prog /\ NoDup (added_factors prog ++ added_eigen prog) /\
  listed_at prog_world 0 = [0; 1] /\ listed_at prog_world 1 = [0] /\ neigh_at prog_world 0 = [0; 1].
Proof.
  repeat split; [repeat constructor|]. cbn. constructor; [cbn; intuition discriminate|]. constructor; [tauto | constructor].
Qed.

(** ** C30 *)
(** adding a node that is in the graph appends it again and gives it a new id,
    so the node found under its old id has another id *)
Theorem C30_readd_node : forall ops w l w' k k0, grun world_new ops = Some w -> get_node w k0 = Some l ->
  add_node w l = Some (w', k) ->
  number_nodes w' = S (number_nodes w) /\ get_node w' k0 = Some l /\ get_node w' k = Some l /\ k0 <> k /\
  exists n, nth_error (w_nodes w') l = Some n /\ n_id n = k.
Proof.
  intros ops w l w' k k0 R G H. apply add_node_inv in H. destruct H as (n & Hn & -> & Wn & _ & G' & _).
  unfold get_node, number_nodes in *. rewrite G', app_length.
  assert (L : k0 < length (g_nodes (w_graph w))) by (apply nth_error_Some; congruence).
  rewrite nth_error_app1 by auto. rewrite nth_error_snoc, Nat.ltb_irrefl, Nat.eqb_refl. cbn.
  repeat split; auto; try lia. exists (node_set_id (length (g_nodes (w_graph w))) n). split; auto.
  rewrite Wn. apply upd_nth_eq; auto.
Qed.
Print Assumptions C30_readd_node.
Theorem C30_no_duplicates_refuted : exists ops w, grun world_new ops = Some w /\
  ~ NoDup (g_nodes (w_graph w)) /\ ~ NoDup (g_active (w_graph w)) /\ ~ NoDup (g_factors (w_graph w)) /\
  get_dimension_state w = 6.
Proof.
  exists [ONewNode STANDARD v_a; OAddNode 0; OAddNode 0; ONewFactor 1 3 [0] res0 jac0 info0 QUADRATIC; OAddFactor 0; OAddFactor 0].
  eexists. split; [reflexivity|]. cbn.
  assert (D : ~ NoDup [0; 0]) by (intros N; inversion N as [|? ? I]; subst; apply I; cbn; auto). auto.
Qed.
Print Assumptions C30_no_duplicates_refuted.
Example C30_example : exists w' k, get_node prog_world 1 = Some 0 /\ add_node prog_world 0 = Some (w', k) /\ k = 2.
Proof. eexists. eexists. split; [reflexivity|]. split; reflexivity. Qed.

(** ** C31 *)
Theorem C31_rm_factor : forall w n f x, nth_error (w_nodes w) n = Some x ->
  (In f (n_factors x) -> exists a b w', n_factors x = a ++ f :: b /\ ~ In f a /\ rm_factor w n f = Some w' /\
     nth_error (w_nodes w') n = Some (mkNode (n_id x) (n_dim x) (n_mode x) (a ++ b) (n_data x)) /\
     (forall m, m <> n -> nth_error (w_nodes w') m = nth_error (w_nodes w) m) /\
     w_factors w' = w_factors w /\ w_graph w' = w_graph w) /\
  (~ In f (n_factors x) -> rm_factor w n f = None).
Proof.
  intros w n f x E. pose proof (erase_first_spec f (n_factors x)) as S. unfold rm_factor, node_rm_factor. rewrite E.
  destruct (erase_first f (n_factors x)) as [r|]; cbn.
  - destruct S as (a & b & Ex & Na & ->). split.
    + intros _. exists a, b. eexists. split; [exact Ex|]. split; auto. split; [reflexivity|]. cbn.
      split; [apply upd_nth_eq with (x := x); auto|]. split; auto. intros m Hm. apply upd_nth_neq; auto.
    + intros N. exfalso. apply N. rewrite Ex. apply in_app_iff; cbn; auto.
  - split; [tauto | auto].
Qed.
Print Assumptions C31_rm_factor.
(** removing an absent factor is reachable and undefined *)
Theorem C31_rm_absent_refuted : exists ops w, grun world_new ops = Some w /\ rm_factor w 0 0 = None /\
  grun world_new (ops ++ [ORmFactor 0 0]) = None.
Proof.
  exists [ONewNode STANDARD v_a; OAddNode 0; ONewFactor 1 3 [0] res0 jac0 info0 QUADRATIC].
  eexists. split; [reflexivity|]. split; reflexivity.
Qed.
Print Assumptions C31_rm_absent_refuted.
Example C31_example : exists x, nth_error (w_nodes prog_world) 0 = Some x /\ In 1 (n_factors x) /\ ~ In 7 (n_factors x).
Proof. eexists. split; [reflexivity|]. cbn. intuition lia. Qed.

(** ** C64 *)
(** the destructor leaves a node/factor reference cycle exactly when an added
    factor has a neighbour node that was never added *)
Theorem C64_destructor_cycles : forall ops w, grun world_new ops = Some w -> Forall no_rm ops ->
  ((exists n f, In f (listed_at (graph_destroy w) n) /\ In n (neigh_at (graph_destroy w) f)) <->
   (exists n f, In f (added_factors ops ++ added_eigen ops) /\ In n (neigh_at w f) /\ ~ In n (added_nodes ops))).
Proof.
  intros ops w H F. pose proof (containers _ _ H) as (A & B & C).
  assert (E : forall n f, cnt (listed_at w n) f = cnt (added_factors ops ++ added_eigen ops) f * cnt (neigh_at w f) n).
  { intros n f. pose proof (adjacency _ _ H n f) as E. rewrite no_rm_removed in E by auto. rewrite count_occ_app. lia. }
  assert (N : forall f, neigh_at (graph_destroy w) f = neigh_at w f) by reflexivity.
  split.
  - intros (n & f & I & J). rewrite N in J. rewrite destroy_listed, A in I.
    destruct (in_dec Nat.eq_dec n (added_nodes ops)) as [Y|Y]; [destruct I|].
    exists n, f. repeat split; auto. rewrite (count_occ_In Nat.eq_dec) in *. rewrite E in I. destruct (cnt _ f); lia.
  - intros (n & f & I & J & Y). exists n, f. rewrite N. split; auto. rewrite destroy_listed, A.
    destruct (in_dec Nat.eq_dec n (added_nodes ops)) as [Y'|_]; [tauto|].
    rewrite (count_occ_In Nat.eq_dec) in *. rewrite E. apply Nat.mul_pos_pos; auto.
Qed.
Print Assumptions C64_destructor_cycles.
Theorem C64_leak_refuted : exists ops w, grun world_new ops = Some w /\ Forall no_rm ops /\
  In 0 (listed_at (graph_destroy w) 0) /\ In 0 (neigh_at (graph_destroy w) 0).
Proof.
  exists [ONewNode STANDARD v_a; ONewFactor 1 3 [0] res0 jac0 info0 QUADRATIC; OAddFactor 0].
  eexists. split; [reflexivity|]. split; [repeat constructor|]. cbn. auto.
Qed.
Print Assumptions C64_leak_refuted.
Example C64_example : Forall no_rm prog /\ listed_at prog_world 0 <> [] /\ listed_at (graph_destroy prog_world) 0 = [].
Proof. split; [repeat constructor|]. split; [discriminate | reflexivity]. Qed.
