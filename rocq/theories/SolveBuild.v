(** What build_adjacency and build_info_adjacency compute. *)
Require Import Reals List Arith Lia Lra Bool.
From Verif Require Import Nodes Robust Graph GraphProofs Sums Solve SpecSolve SolveIndex SolveFrame SolveSums.
Import ListNotations.
Local Open Scope R_scope.

Lemma is_anchor_false n : is_anchor n = false <-> n_mode n <> ANCHOR.
Proof. unfold is_anchor. destruct (n_mode n); split; congruence. Qed.
Lemma is_anchor_true n : is_anchor n = true <-> n_mode n = ANCHOR.
Proof. unfold is_anchor. destruct (n_mode n); split; congruence. Qed.
Lemma wf_active_nodup w : wf w -> NoDup (g_active (w_graph w)).
Proof. intros H. apply (NoDup_map_inv _ _ (wf_ids _ H)). Qed.
Lemma wf_neigh' w l n : wf w -> In l (g_factors (w_graph w)) -> In n (f_nodes (fa w l)) -> is_anchor (nd w n) = false -> In n (g_active (w_graph w)).
Proof. intros H A B C. apply (wf_neigh _ H l n A B). apply is_anchor_false; auto. Qed.
Lemma eval_fa w l : wf w -> In l (g_factors (w_graph w)) -> fa (eval_factors w) l = evalG w (fa w l).
Proof.
  intros H I. destruct (eval_factors_spec w) as (_ & _ & _ & D). rewrite D.
  pose proof (wf_factors _ H l I) as L. apply Nat.ltb_lt in L. apply mem_In in I. rewrite I, L. reflexivity.
Qed.
Lemma fold_blocks w fs : forall off r i,
  (i < off)%nat -> fold_left (fun r p => set_block r (fst p) (f_dim (fa w (snd p))) (f_r (fa w (snd p)))) (index_factors w off fs) r i = r i.
Proof.
  induction fs as [|a fs IH]; intros off r i L; cbn [index_factors fold_left]; auto.
  rewrite IH by lia. unfold set_block; cbn [fst snd]. destruct (Nat.leb_spec off i); [lia|]. reflexivity.
Qed.
Lemma fold_blocks_at w fs : forall off r i lf l, nth_error fs i = Some lf -> (l < fdim w lf)%nat ->
  fold_left (fun r p => set_block r (fst p) (f_dim (fa w (snd p))) (f_r (fa w (snd p)))) (index_factors w off fs) r
    (off + before (fdim w) fs i + l)%nat = f_r (fa w lf) l.
Proof.
  induction fs as [|a fs IH]; intros off r [|i] lf l Hi Hl; try discriminate; cbn [index_factors fold_left].
  - cbn in Hi. injection Hi as ->. unfold before; cbn [firstn map lsumn]. rewrite Nat.add_0_r.
    unfold fdim in Hl. rewrite fold_blocks by lia. unfold set_block; cbn [fst snd].
    destruct (Nat.leb_spec off (off + l)); [|lia]. destruct (Nat.ltb_spec (off + l) (off + f_dim (fa w lf))); [|lia]. cbn. f_equal. lia.
  - cbn in Hi. assert (B : before (fdim w) (a :: fs) (S i) = (f_dim (fa w a) + before (fdim w) fs i)%nat) by reflexivity.
    rewrite B, Nat.add_assoc. apply IH; auto.
Qed.
Lemma map_snd_index w fs : forall off, map snd (index_factors w off fs) = fs.
Proof. induction fs; intros; cbn; f_equal; auto. Qed.

Record built (s s' : solver) : Prop := {
  bt_skel : skel (s_w s) (s_w s');
  bt_nodes : w_nodes (s_w s') = w_nodes (s_w s);
  bt_N : s_N s' = g_stateDim (w_graph (s_w s));
  bt_M : s_M s' = g_obsDim (w_graph (s_w s));
  bt_A : exists m, good_map (s_w s) m /\ s_A s' = flat_map (factor_inserts (eval_factors (s_w s)) m) (index_factors (s_w s) 0 (g_factors (w_graph (s_w s))));
  bt_Andup : NoDup (map fst (s_A s'));
  bt_Abound : forall e, In e (s_A s') -> in_bounds (g_obsDim (w_graph (s_w s))) (g_stateDim (w_graph (s_w s))) e;
  bt_W : s_W s' = flat_map (info_inserts (eval_factors (s_w s))) (index_factors (s_w s) 0 (g_factors (w_graph (s_w s))));
  bt_Wndup : NoDup (map fst (s_W s'));
  bt_Wbound : forall e, In e (s_W s') -> in_bounds (g_obsDim (w_graph (s_w s))) (g_obsDim (w_graph (s_w s))) e;
  bt_r : forall i lf l, nth_error (g_factors (w_graph (s_w s))) i = Some lf -> (l < fdim (s_w s) lf)%nat -> s_r s' (row (s_w s) i + l)%nat = res_at (s_w s) lf l;
  bt_fa : forall l, In l (g_factors (w_graph (s_w s))) -> f_chi2 (fa (s_w s') l) = fchi2 (s_w s) l /\ f_r (fa (s_w s') l) = res_at (s_w s) l /\
     f_J (fa (s_w s') l) = jac_at (s_w s) l /\ ((0 < fdim (s_w s) l)%nat -> f_weight (fa (s_w s') l) = weight_at (s_w s) l);
  bt_rest : s_L s' = s_L s /\ s_b s' = s_b s /\ s_dx s' = s_dx s /\ s_lambda s' = s_lambda s /\ s_tol s' = s_tol s /\ s_diag s' = s_diag s }.

Lemma index_factors_skel w w' : skel w w' -> forall fs off, index_factors w' off fs = index_factors w off fs.
Proof. intros S. induction fs as [|a fs IH]; intros off; cbn; auto. destruct (sk_factor _ _ S a) as (-> & _). f_equal; auto. Qed.
Lemma build_wf s : wf (s_w s) -> exists s', build_adjacency s = Some s' /\ built s s'.
Proof.
  intros H. unfold build_adjacency. set (w := s_w s) in *. pose proof (index_nodes_spec w (wf_ids _ H)) as G.
  destruct (index_nodes w) as [m N]. destruct G as [EN G]. fold (good_map w m) in G.
  pose proof (skel_eval w) as SK. set (w1 := eval_factors w) in *.
  pose proof (skel_wf _ _ SK H) as H1. rewrite (sk_graph _ _ SK).
  assert (EM : total_obs w1 = g_obsDim (w_graph w)). { rewrite total_obs_sum, (sk_graph _ _ SK), (skel_fdim _ _ SK). symmetry. apply H. }
  rewrite EM, Nat.eqb_refl. cbn [negb]. rewrite (index_factors_skel _ _ SK).
  assert (N1 : w_nodes w1 = w_nodes w) by apply (eval_factors_spec w).
  assert (G1 : good_map w1 m). { intros i l. rewrite (skel_col _ _ SK), (sk_graph _ _ SK). destruct (sk_node _ _ SK l) as (-> & _). apply G. }
  set (ps := index_factors w 0 (g_factors (w_graph w))) in *.
  assert (Eps : ps = index_factors w1 0 (g_factors (w_graph w1))) by (rewrite (sk_graph _ _ SK), (index_factors_skel _ _ SK); reflexivity).
  assert (Pin : forall p, In p ps -> In (snd p) (g_factors (w_graph w1)) /\ (fst p + fdim w1 (snd p) <= g_obsDim (w_graph w))%nat).
  { intros p Hp. rewrite Eps in Hp. apply index_factors_in in Hp. destruct Hp as (i & Hi & Hf). split. eapply nth_error_In; eauto.
    rewrite Hf, Nat.add_0_l. pose proof (before_S (fdim w1) _ _ _ Hi) as B. rewrite <- B.
    assert (i < length (g_factors (w_graph w1)))%nat by (apply nth_error_Some; congruence).
    pose proof (before_mono (fdim w1) (g_factors (w_graph w1)) (S i) _ ltac:(eassumption)) as B2. rewrite before_all in B2.
    rewrite <- EM, total_obs_sum. exact B2. }
  assert (NA : NoDup (map fst (flat_map (factor_inserts w1 m) ps))).
  { rewrite Eps. apply flat_map_rows_nodup.
    - intros p Hp. rewrite <- Eps in Hp. destruct (Pin p Hp) as [I _]. apply factor_inserts_nodup; auto. intros n; apply wf_neigh'; auto. apply (wf_distinct _ H1 _ I).
    - intros p e _ He. apply factor_inserts_in in He. destruct He as (l & j & n & k & L & _ & _ & _ & ->). cbn. lia. }
  assert (NW : NoDup (map fst (flat_map (info_inserts w1) ps))).
  { rewrite Eps. apply flat_map_rows_nodup.
    - intros p Hp. apply info_inserts_nodup.
    - intros p e _ He. apply info_inserts_in in He. destruct He as (l & k & L & ->). cbn. lia. }
  assert (BA : Forall (in_bounds (g_obsDim (w_graph w)) (g_stateDim (w_graph w))) (flat_map (factor_inserts w1 m) ps)).
  { apply Forall_forall. intros e He. apply in_flat_map in He. destruct He as (p & Hp & He). destruct (Pin p Hp) as [I B].
    apply factor_inserts_in in He. destruct He as (l & j & n & k & L & Hn & An & Lk & ->). unfold in_bounds; cbn. split; [lia|].
    apply nth_error_In in Hn. pose proof (wf_neigh' _ _ _ H1 I Hn An) as Ia. apply In_nth_error in Ia. destruct Ia as [i Ia].
    rewrite (G1 _ _ Ia). unfold col. pose proof (block_inside _ _ _ _ _ Ia Lk) as X. rewrite <- (wf_state _ H1), (sk_graph _ _ SK) in X.
    rewrite (sk_graph _ _ SK). exact X. }
  assert (BW : Forall (in_bounds (g_obsDim (w_graph w)) (g_obsDim (w_graph w))) (flat_map (info_inserts w1) ps)).
  { apply Forall_forall. intros e He. apply in_flat_map in He. destruct He as (p & Hp & He). destruct (Pin p Hp) as [I B].
    apply info_inserts_in in He. destruct He as (l & k & L & ->). unfold in_bounds; cbn. lia. }
  rewrite (sp_insert_all_ok _ _ _ [] BA NA), (sp_insert_all_ok _ _ _ [] BW NW). cbn [app].
  eexists; split; [reflexivity|]. pose proof (skel_weights w1 (g_factors (w_graph w))) as S2.
  destruct (eval_weights_spec w1 (g_factors (w_graph w))) as (E1 & _ & _ & E4).
  constructor; cbn [s_w s_N s_M s_A s_W s_r s_L s_b s_dx s_lambda s_tol s_diag]; auto; fold w; fold w1.
  - eapply skel_trans; eauto.
  - congruence.
  - rewrite EN. symmetry; apply H.
  - exists m. auto.
  - apply Forall_forall; auto.
  - apply Forall_forall; auto.
  - intros i lf l Hi Hl. rewrite Eps. rewrite <- (skel_row _ _ SK). unfold row. rewrite <- (sk_graph _ _ SK) in Hi.
    rewrite <- (skel_fdim _ _ SK) in Hl. rewrite <- (Nat.add_0_l (before _ _ _)). rewrite (fold_blocks_at w1 _ 0 _ i lf l Hi Hl).
    unfold w1. rewrite eval_fa; auto. rewrite (sk_graph _ _ SK) in Hi. eapply nth_error_In; eauto.
  - intros l I. rewrite E4. pose proof (wf_factors _ H l I) as L. rewrite <- (sk_flen _ _ SK) in L. apply Nat.ltb_lt in L.
    pose proof I as I'. apply mem_In in I. rewrite I, L. cbn [andb]. assert (EF : fa w1 l = evalG w (fa w l)) by (apply eval_fa; auto). rewrite EF.
    unfold weightG. change (f_dim (evalG w (fa w l))) with (fdim w l). destruct (Nat.eqb_spec (fdim w l) 0).
    + repeat split. lia.
    + repeat split.
  - repeat split.
Qed.
Lemma build_skel_out s s' : build_adjacency s = Some s' -> skel (s_w s) (s_w s') /\ w_nodes (s_w s') = w_nodes (s_w s) /\ s_lambda s' = s_lambda s /\ s_tol s' = s_tol s.
Proof.
  unfold build_adjacency. destruct (index_nodes (s_w s)) as [m N]. destruct (negb _); [discriminate|].
  destruct (sp_insert_all _ _ _ _); [|discriminate]. destruct (sp_insert_all _ _ _ _); [|discriminate].
  intros E. injection E as <-. cbn. split; [|split]; auto.
  - eapply skel_trans. apply skel_eval. apply skel_weights.
  - destruct (eval_weights_spec (eval_factors (s_w s)) (g_factors (w_graph (eval_factors (s_w s))))) as (E1 & _). rewrite E1. apply (eval_factors_spec (s_w s)).
Qed.
(** the entries of A, W *)
Lemma built_A s s' : wf (s_w s) -> built s s' -> forall e, In e (s_A s') <->
  exists i lf l j n m k, nth_error (g_factors (w_graph (s_w s))) i = Some lf /\ (l < fdim (s_w s) lf)%nat /\
    nth_error (f_nodes (fa (s_w s) lf)) j = Some n /\ n_mode (nd (s_w s) n) <> ANCHOR /\
    nth_error (g_active (w_graph (s_w s))) m = Some n /\ (k < ndim (s_w s) n)%nat /\
    e = ((row (s_w s) i + l)%nat, (col (s_w s) m + k)%nat, jac_at (s_w s) lf l (before (ndim (s_w s)) (f_nodes (fa (s_w s) lf)) j + k)%nat).
Proof.
  intros H B e. destruct (bt_A _ _ B) as (m & G & ->). set (w := s_w s) in *. pose proof (skel_eval w) as SK.
  assert (EN : forall n, nd (eval_factors w) n = nd w n) by (intros; apply nd_same, eval_factors_spec).
  rewrite in_flat_map. split.
  - intros (p & Hp & He). apply index_factors_in in Hp. destruct Hp as (i & Hi & Hf). apply factor_inserts_in in He.
    destruct He as (l & j & n & k & L & Hn & An & Lk & ->). rewrite (skel_fdim _ _ SK) in L. rewrite (skel_ndim _ _ SK) in Lk.
    pose proof (nth_error_In _ _ Hi) as I. rewrite (eval_fa w _ H I) in *. cbn in Hn. rewrite EN in *.
    pose proof (wf_neigh' _ _ _ H I (nth_error_In _ _ Hn) An) as Ia. apply In_nth_error in Ia. destruct Ia as [q Ia].
    exists i, (snd p), l, j, n, q, k. repeat (split; auto). apply is_anchor_false; auto.
    rewrite (G _ _ Ia), Hf. rewrite (skel_ndim _ _ SK). reflexivity.
  - intros (i & lf & l & j & n & q & k & Hi & L & Hn & An & Hq & Lk & ->). exists ((row w i), lf). split.
    + eapply nth_error_In. rewrite (index_factors_nth _ _ _ _ _ Hi). reflexivity.
    + apply factor_inserts_in. pose proof (nth_error_In _ _ Hi) as I. cbn [fst snd]. rewrite (eval_fa w _ H I).
      exists l, j, n, k. rewrite (skel_fdim _ _ SK), (skel_ndim _ _ SK), EN. repeat (split; auto). apply is_anchor_false; auto.
      rewrite (G _ _ Hq). reflexivity.
Qed.
Lemma built_W s s' : wf (s_w s) -> built s s' -> forall e, In e (s_W s') <->
  exists i lf l k, nth_error (g_factors (w_graph (s_w s))) i = Some lf /\ (l <= k < fdim (s_w s) lf)%nat /\
    e = ((row (s_w s) i + l)%nat, (row (s_w s) i + k)%nat, weight_at (s_w s) lf * f_info (fa (s_w s) lf) l k).
Proof.
  intros H B e. rewrite (bt_W _ _ B). set (w := s_w s) in *. pose proof (skel_eval w) as SK. rewrite in_flat_map. split.
  - intros (p & Hp & He). apply index_factors_in in Hp. destruct Hp as (i & Hi & Hf). apply info_inserts_in in He.
    destruct He as (l & k & L & ->). rewrite (skel_fdim _ _ SK) in L.
    pose proof (nth_error_In _ _ Hi) as I. exists i, (snd p), l, k. repeat (split; auto); try apply L. rewrite (eval_fa w _ H I), Hf. reflexivity.
  - intros (i & lf & l & k & Hi & L & ->). exists ((row w i), lf). split.
    + eapply nth_error_In. rewrite (index_factors_nth _ _ _ _ _ Hi). reflexivity.
    + apply info_inserts_in. pose proof (nth_error_In _ _ Hi) as I. cbn [fst snd]. rewrite (eval_fa w _ H I).
      exists l, k. rewrite (skel_fdim _ _ SK). repeat split; try apply L.
Qed.

(** ** the normal equations *)
Lemma A_row s s' i lf l x : wf (s_w s) -> built s s' -> nth_error (g_factors (w_graph (s_w s))) i = Some lf -> (l < fdim (s_w s) lf)%nat ->
  sumn (g_stateDim (w_graph (s_w s))) (fun q => sp_get (s_A s') (row (s_w s) i + l) q * x q) = jac_times (s_w s) lf (increments (s_w s) x) l.
Proof.
  intros H B Hi Hl. rewrite sp_get_row; [|apply B|intros e He; apply (bt_Abound _ _ B e He)].
  destruct (bt_A _ _ B) as (m & G & EA). rewrite EA. set (w := s_w s) in *. pose proof (skel_eval w) as SK.
  assert (EN : forall n, nd (eval_factors w) n = nd w n) by (intros; apply nd_same, eval_factors_spec).
  pose proof (nth_error_In _ _ Hi) as I.
  rewrite <- (index_factors_skel _ _ SK), <- (skel_row _ _ SK). unfold row. rewrite (sk_graph _ _ SK).
  rewrite <- (Nat.add_0_l (before _ _ _)). rewrite <- (skel_fdim _ _ SK) in Hl. rewrite (row_sum_factors _ _ _ _ 0 i lf l Hi Hl).
  pose proof (skel_wf _ _ SK H) as H1.
  rewrite row_inserts_sum.
  - rewrite (eval_fa w _ H I). unfold jac_times. rewrite (skel_ndim _ _ SK). unfold increments. rewrite (sk_graph _ _ SK), (skel_col _ _ SK).
    assert (EI : (fun n k => if is_anchor (nd (eval_factors w) n) then 0 else x (col w (index_of n (g_active (w_graph w))) + k)%nat) =
                 (fun n k => if is_anchor (nd w n) then 0 else x (col w (index_of n (g_active (w_graph w))) + k)%nat)).
    { apply FunctionalExtensionality.functional_extensionality. intros n. rewrite EN. reflexivity. }
    rewrite EI. reflexivity.
  - intros i' l'. rewrite (skel_col _ _ SK), (sk_graph _ _ SK), EN. apply G.
  - apply wf_active_nodup; auto.
  - intros n Hn An. apply (wf_neigh' _ lf _ H1); auto. rewrite (sk_graph _ _ SK); auto.
Qed.
Lemma lsum_mult_l {A} c l (f : A -> R) : lsum l (fun x => c * f x) = c * lsum l f.
Proof. apply lsum_scal. Qed.
Lemma W_form s s' u v : wf (s_w s) -> built s s' ->
  let M := g_obsDim (w_graph (s_w s)) in
  sumn M (fun p => sumn M (fun q => u p * upper_sym (sp_get (s_W s')) p q * v q)) =
  lsum (index_factors (s_w s) 0 (g_factors (w_graph (s_w s)))) (fun p => weight_at (s_w s) (snd p) *
    quad (fdim (s_w s) (snd p)) (upper_sym (f_info (fa (s_w s) (snd p)))) (fun l => u (fst p + l)%nat) (fun l => v (fst p + l)%nat)).
Proof.
  intros H B M. rewrite upper_form.
  2: apply B.
  2:{ intros e He. destruct (bt_Wbound _ _ B e He) as [B1 B2]. split; auto. split; auto.
      apply (built_W _ _ H B) in He. destruct He as (i & lf & l & k & _ & L & ->). cbn. lia. }
  rewrite (bt_W _ _ B). rewrite lsum_flat_map. apply lsum_ext. intros p Hp. apply index_factors_in in Hp. destruct Hp as (i & Hi & _).
  pose proof (nth_error_In _ _ Hi) as I. unfold info_inserts. rewrite (eval_fa _ _ H I).
  change (f_dim (evalG (s_w s) (fa (s_w s) (snd p)))) with (fdim (s_w s) (snd p)).
  rewrite lsum_flat_map, lsum_seq, <- upper_quad, <- sumn_scal. apply sumn_ext. intros l Hl.
  rewrite lsum_map, <- lsum_scal. apply lsum_ext. intros k Hk. cbn [fst snd]. change (robust_eval _ _ _) with (weight_at (s_w s) (snd p)).
  change (f_info (evalG _ _)) with (f_info (fa (s_w s) (snd p))).
  replace (Nat.eqb (fst p + l) (fst p + k)) with (Nat.eqb l k). ring.
  destruct (Nat.eqb_spec l k), (Nat.eqb_spec (fst p + l) (fst p + k)); auto; lia.
Qed.
Lemma lsum_index w (g : loc -> R) fs : forall off, lsum (index_factors w off fs) (fun p => g (snd p)) = lsum fs g.
Proof. intros off. rewrite <- (lsum_map (A := nat * loc) snd), map_snd_index. reflexivity. Qed.
Lemma normal_matrix s s' x y : wf (s_w s) -> built s s' ->
  let n := g_stateDim (w_graph (s_w s)) in let L := s_L (build_info_adjacency s') in
  sumn n (fun i => sumn n (fun j => x i * L i j * y j)) =
  lsum (g_factors (w_graph (s_w s))) (fun l => weight_at (s_w s) l * quad (fdim (s_w s) l) (upper_sym (f_info (fa (s_w s) l)))
     (jac_times (s_w s) l (increments (s_w s) x)) (jac_times (s_w s) l (increments (s_w s) y))).
Proof.
  intros H B n L. unfold L, build_info_adjacency; cbn [s_L]. rewrite (sk_graph _ _ (bt_skel _ _ B)).
  rewrite bilinear_form. rewrite (W_form _ _ _ _ H B). rewrite <- (lsum_index (s_w s) _ _ 0).
  apply lsum_ext. intros p Hp. apply index_factors_in in Hp. destruct Hp as (i & Hi & Hf). f_equal. rewrite Nat.add_0_l in Hf.
  apply quad_ext; intros l Hl; rewrite Hf; apply (A_row _ _ i (snd p) l _ H B Hi Hl).
Qed.
Lemma normal_rhs s s' x : wf (s_w s) -> built s s' ->
  let n := g_stateDim (w_graph (s_w s)) in let b := s_b (build_info_adjacency s') in
  sumn n (fun i => b i * x i) =
  lsum (g_factors (w_graph (s_w s))) (fun l => weight_at (s_w s) l * quad (fdim (s_w s) l) (upper_sym (f_info (fa (s_w s) l)))
     (jac_times (s_w s) l (increments (s_w s) x)) (res_at (s_w s) l)).
Proof.
  intros H B n b. unfold b, build_info_adjacency; cbn [s_b]. rewrite (sk_graph _ _ (bt_skel _ _ B)).
  rewrite linear_form. rewrite (W_form _ _ _ _ H B). rewrite <- (lsum_index (s_w s) _ _ 0).
  apply lsum_ext. intros p Hp. apply index_factors_in in Hp. destruct Hp as (i & Hi & Hf). f_equal. rewrite Nat.add_0_l in Hf.
  apply quad_ext; intros l Hl; rewrite Hf. apply (A_row _ _ i (snd p) l _ H B Hi Hl). apply (bt_r _ _ B _ _ _ Hi Hl).
Qed.
