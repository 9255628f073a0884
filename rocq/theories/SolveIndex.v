(** Index arithmetic of build_adjacency. *)
Require Import Reals List Arith Lia Bool FinFun.
From Verif Require Import Nodes Robust Graph GraphProofs Sums Solve SpecSolve.
Import ListNotations.
Local Open Scope nat_scope.

(** ** lists *)
Lemma NoDup_app_intro {A} (a b : list A) : NoDup a -> NoDup b -> (forall x, In x a -> ~ In x b) -> NoDup (a ++ b).
Proof.
  induction a as [|x a IH]; intros Ha Hb H; cbn; auto. inversion Ha; subst. constructor.
  - rewrite in_app_iff. intros [I|I]; auto. apply (H x); cbn; auto.
  - apply IH; auto. intros y Hy. apply H; cbn; auto.
Qed.
Lemma NoDup_flat_map {A B} (f : A -> list B) l : NoDup l -> (forall a, In a l -> NoDup (f a)) ->
  (forall a b x, In a l -> In b l -> a <> b -> In x (f a) -> ~ In x (f b)) -> NoDup (flat_map f l).
Proof.
  induction l as [|a l IH]; intros N H D; cbn; [constructor|]. inversion N; subst. apply NoDup_app_intro.
  - apply H; cbn; auto.
  - apply IH; auto. intros; apply H; cbn; auto. intros a0 b x Ha Hb. apply D; cbn; auto.
  - intros x Hx I. apply in_flat_map in I. destruct I as (b & Hb & I).
    apply (D a b x); cbn; auto. intros ->; auto.
Qed.
Lemma before_S {A} (dim : A -> nat) s j x : nth_error s j = Some x -> before dim s (S j) = before dim s j + dim x.
Proof.
  unfold before. revert j. induction s as [|y s IH]; intros [|j] H; try discriminate.
  - injection H as ->. cbn. lia.
  - cbn in H. rewrite !firstn_cons. cbn [map lsumn]. rewrite (IH _ H). lia.
Qed.
Lemma before_all {A} (dim : A -> nat) s : before dim s (length s) = lsumn (map dim s).
Proof. unfold before. rewrite firstn_all. reflexivity. Qed.
Lemma before_mono {A} (dim : A -> nat) s i j : i <= j -> before dim s i <= before dim s j.
Proof.
  unfold before. revert i j. induction s as [|x s IH]; intros i j L.
  - rewrite !firstn_nil. auto.
  - destruct i; cbn; [lia|]. destruct j; [lia|]. cbn. specialize (IH i j ltac:(lia)). lia.
Qed.
Lemma before_ext {A} (d d' : A -> nat) s j : (forall x, In x s -> d x = d' x) -> before d s j = before d' s j.
Proof.
  intros H. unfold before. f_equal. apply map_ext_in. intros x Hx. apply H.
  rewrite <- (firstn_skipn j s). apply in_app_iff; auto.
Qed.
(** blocks of different elements do not overlap and are inside the total *)
Lemma block_disjoint {A} (dim : A -> nat) s i j x y k k' : nth_error s i = Some x -> nth_error s j = Some y ->
  k < dim x -> k' < dim y -> before dim s i + k = before dim s j + k' -> i = j /\ k = k'.
Proof.
  intros Hx Hy Lk Lk' E. destruct (lt_eq_lt_dec i j) as [[L|L]|L].
  - pose proof (before_S dim s i x Hx). pose proof (before_mono dim s (S i) j L). lia.
  - subst j. split; auto. lia.
  - pose proof (before_S dim s j y Hy). pose proof (before_mono dim s (S j) i L). lia.
Qed.
Lemma block_inside {A} (dim : A -> nat) s i x k : nth_error s i = Some x -> k < dim x -> before dim s i + k < lsumn (map dim s).
Proof.
  intros Hx Lk. pose proof (before_S dim s i x Hx). rewrite <- before_all.
  assert (i < length s) by (apply nth_error_Some; congruence).
  pose proof (before_mono dim s (S i) (length s) ltac:(lia)). lia.
Qed.
Lemma index_of_nth l s : In l s -> nth_error s (index_of l s) = Some l.
Proof.
  induction s as [|x s IH]; intros I; [destruct I|]. cbn. destruct (Nat.eqb_spec x l) as [->|N]; auto.
  destruct I as [I|I]; [congruence|]. auto.
Qed.
Lemma index_of_unique l s m : NoDup s -> nth_error s m = Some l -> index_of l s = m.
Proof.
  intros N H. apply (proj1 (NoDup_nth_error s) N).
  - apply nth_error_Some. rewrite index_of_nth by (eapply nth_error_In; eauto). discriminate.
  - rewrite index_of_nth by (eapply nth_error_In; eauto). auto.
Qed.
Lemma NoDup_map_inv' {A B} (f : A -> B) l : NoDup (map f l) -> NoDup l.
Proof. apply NoDup_map_inv. Qed.

(** ** the node index map *)
Lemma map_find_app m k v k' : map_find (m ++ [(k, v)]) k' =
  match map_find m k' with Some x => Some x | None => if Nat.eqb k k' then Some v else None end.
Proof.
  unfold map_find. induction m as [|[a b] m IH]; cbn.
  - destruct (Nat.eqb k k'); reflexivity.
  - destruct (Nat.eqb a k'); auto.
Qed.
Definition index_step (w : world) : list (nat * nat) * nat -> loc -> list (nat * nat) * nat :=
  fun '(m, N) l =>
    (match map_find m (n_id (nd w l)) with Some _ => m | None => m ++ [(n_id (nd w l), N)] end, N + n_dim (nd w l)).
Lemma index_nodes_fold w s : NoDup (map (fun l => n_id (nd w l)) s) ->
  forall m N, fold_left (index_step w) s ([], 0) = (m, N) ->
  N = lsumn (map (ndim w) s) /\
  (forall k, map_find m k = None <-> ~ In k (map (fun l => n_id (nd w l)) s)) /\
  (forall i l, nth_error s i = Some l -> map_find m (n_id (nd w l)) = Some (before (ndim w) s i)).
Proof.
  induction s as [|l s IH] using rev_ind; intros ND m N H.
  - injection H as <- <-. cbn. repeat split; auto. intros [|i] l; discriminate.
  - rewrite fold_left_app in H. destruct (fold_left (index_step w) s ([], 0)) as [m0 N0] eqn:E.
    rewrite map_app in ND. cbn in ND.
    assert (ND0 : NoDup (map (fun l => n_id (nd w l)) s)) by (apply NoDup_remove_1 in ND; rewrite app_nil_r in ND; auto).
    assert (NI : ~ In (n_id (nd w l)) (map (fun l => n_id (nd w l)) s)) by (apply NoDup_remove_2 in ND; rewrite app_nil_r in ND; auto).
    destruct (IH ND0 _ _ eq_refl) as (E1 & E2 & E3). cbn in H.
    destruct (map_find m0 (n_id (nd w l))) eqn:F.
    { exfalso. apply (proj2 (E2 (n_id (nd w l)))) in NI. congruence. }
    injection H as <- <-. rewrite !map_app, lsumn_app. cbn. unfold ndim at 2. split; [lia|]. split.
    + intros k. rewrite map_find_app, in_app_iff. cbn. destruct (map_find m0 k) eqn:Fk.
      * split; [discriminate|]. intros H. exfalso. apply H. left. destruct (in_dec Nat.eq_dec k (map (fun l => n_id (nd w l)) s)) as [I|I]; auto.
        apply E2 in I. congruence.
      * destruct (Nat.eqb_spec (n_id (nd w l)) k); split; intros H; try discriminate; auto; try tauto.
        intros [I|[I|[]]]; auto. apply E2 in Fk. auto.
    + intros i x Hx. rewrite map_find_app. rewrite nth_error_snoc in Hx.
      assert (B : before (ndim w) (s ++ [l]) i = if i <? length s then before (ndim w) s i else before (ndim w) (s ++ [l]) i).
      { destruct (Nat.ltb_spec i (length s)); auto. unfold before. rewrite firstn_app. replace (i - length s) with 0 by lia.
        cbn. rewrite app_nil_r. reflexivity. }
      destruct (i <? length s) eqn:Li.
      * rewrite (E3 _ _ Hx), B. reflexivity.
      * destruct (Nat.eqb_spec i (length s)) as [->|]; [|discriminate]. injection Hx as <-. rewrite F, Nat.eqb_refl.
        f_equal. unfold before. rewrite firstn_app, Nat.sub_diag, firstn_all. cbn. rewrite app_nil_r. auto.
Qed.
Lemma index_nodes_spec w : NoDup (map (fun l => n_id (nd w l)) (g_active (w_graph w))) ->
  let (m, N) := index_nodes w in
  N = lsumn (map (ndim w) (g_active (w_graph w))) /\
  (forall i l, nth_error (g_active (w_graph w)) i = Some l -> map_get m (n_id (nd w l)) = col w i).
Proof.
  intros ND. destruct (index_nodes w) as [m N] eqn:E.
  destruct (index_nodes_fold w _ ND m N E) as (A & _ & C). split; auto.
  intros i l H. unfold map_get. rewrite (C _ _ H). reflexivity.
Qed.

(** ** sparse insertion *)
Definition in_bounds (rows cols : nat) (e : nat * nat * R) : Prop := fst (fst e) < rows /\ snd (fst e) < cols.
Lemma same_pos_true i j (e : nat * nat * R) : same_pos i j e = true <-> fst e = (i, j).
Proof.
  destruct e as [[a b] v]; unfold same_pos; cbn. rewrite andb_true_iff, !Nat.eqb_eq. split; [intros [-> ->]; auto | intros E; injection E as -> ->; auto].
Qed.
Lemma existsb_same_pos i j (A : list (nat * nat * R)) : existsb (same_pos i j) A = true <-> In (i, j) (map fst A).
Proof.
  rewrite existsb_exists, in_map_iff. split; intros (e & H1 & H2); exists e; rewrite same_pos_true in *; auto.
Qed.
Lemma sp_insert_all_ok rows cols es : forall A, Forall (in_bounds rows cols) es -> NoDup (map fst (A ++ es)) ->
  sp_insert_all rows cols A es = Some (A ++ es).
Proof.
  induction es as [|e es IH]; intros A B N. { cbn. rewrite app_nil_r. auto. }
  inversion B as [|? ? [B1 B2] B']; subst. destruct e as [[i j] v]. cbn in B1, B2. cbn [sp_insert_all sp_insert].
  apply Nat.ltb_lt in B1. apply Nat.ltb_lt in B2. rewrite B1, B2. cbn.
  assert (X : existsb (same_pos i j) A = false).
  { apply not_true_is_false. intros E. apply existsb_same_pos in E. rewrite map_app in N. cbn in N.
    apply NoDup_remove_2 in N. apply N. apply in_app_iff; auto. }
  rewrite X. cbn. rewrite IH; auto; rewrite <- app_assoc; auto.
Qed.
(** conversely the insertions only succeed that way *)
Lemma sp_insert_all_inv rows cols es : forall A A', sp_insert_all rows cols A es = Some A' ->
  A' = A ++ es /\ Forall (in_bounds rows cols) es /\ (NoDup (map fst A) -> NoDup (map fst (A ++ es))).
Proof.
  induction es as [|e es IH]; intros A A' H. { cbn in H. injection H as <-. rewrite app_nil_r. auto. }
  destruct e as [[i j] v]. cbn [sp_insert_all sp_insert] in H. destruct (i <? rows) eqn:B1; [|discriminate]. destruct (j <? cols) eqn:B2; [|discriminate].
  destruct (existsb (same_pos i j) A) eqn:X; [discriminate|]. cbn in H. destruct (IH _ _ H) as (-> & F & N).
  apply Nat.ltb_lt in B1. apply Nat.ltb_lt in B2. rewrite <- app_assoc in *. split; auto. split; [constructor; auto; split; auto|].
  intros ND. apply N. rewrite map_app. apply NoDup_app_intro; auto.
  - cbn. constructor; auto. constructor.
  - intros x Hx [<-|[]]. assert (existsb (same_pos i j) A = true) by (apply existsb_same_pos; auto). congruence.
Qed.

(** ** the rows *)
Lemma index_factors_nth w fs : forall off i l, nth_error fs i = Some l ->
  nth_error (index_factors w off fs) i = Some (off + before (fdim w) fs i, l).
Proof.
  induction fs as [|x fs IH]; intros off [|i] l H; try discriminate.
  - injection H as ->. cbn. unfold before; cbn. rewrite Nat.add_0_r. reflexivity.
  - cbn in H. cbn. rewrite (IH _ _ _ H). unfold before; cbn. unfold fdim at 2. f_equal. f_equal. lia.
Qed.
Lemma index_factors_length w fs : forall off, length (index_factors w off fs) = length fs.
Proof. induction fs; intros; cbn; auto. Qed.
Lemma index_factors_in w off fs p : In p (index_factors w off fs) ->
  exists i, nth_error fs i = Some (snd p) /\ fst p = off + before (fdim w) fs i.
Proof.
  intros I. apply In_nth_error in I. destruct I as [i H].
  assert (L : i < length fs) by (rewrite <- (index_factors_length w fs off); apply nth_error_Some; congruence).
  destruct (nth_error fs i) as [l|] eqn:E. 2:{ apply nth_error_None in E. lia. }
  rewrite (index_factors_nth _ _ _ _ _ E) in H. injection H as <-. exists i. auto.
Qed.
Lemma total_obs_sum w : total_obs w = lsumn (map (fdim w) (g_factors (w_graph w))).
Proof.
  assert (H : forall s n, fold_left (fun m l => m + f_dim (fa w l)) s n = n + lsumn (map (fdim w) s)).
  { induction s as [|l s IH]; intros n; cbn; [lia|]. rewrite IH. unfold fdim. lia. }
  unfold total_obs. rewrite H. reflexivity.
Qed.
(** entries of one row of a factor *)
Lemma row_inserts_in w m J off l ns : forall tk e, In e (row_inserts w m J off l tk ns) <->
  exists j n k, nth_error ns j = Some n /\ is_anchor (nd w n) = false /\ k < ndim w n /\
    e = (off + l, map_get m (n_id (nd w n)) + k, J l (k + (tk + before (ndim w) ns j))).
Proof.
  induction ns as [|n ns IH]; intros tk e; cbn.
  - split; [intros [] | intros ([|j] & n & k & H & _); discriminate].
  - assert (T : forall j, before (ndim w) (n :: ns) (S j) = n_dim (nd w n) + before (ndim w) ns j) by reflexivity.
    destruct (is_anchor (nd w n)) eqn:An.
    + rewrite IH. split.
      * intros (j & x & k & H1 & H2 & H3 & ->). exists (S j), x, k. repeat split; auto. rewrite T. f_equal. f_equal. lia.
      * intros (j & x & k & H1 & H2 & H3 & ->). destruct j as [|j]; cbn in H1; [injection H1 as <-; congruence|].
        exists j, x, k. repeat split; auto. rewrite T. f_equal. f_equal. lia.
    + rewrite in_app_iff, IH, in_map_iff. split.
      * intros [(k & <- & Hk)|(j & x & k & H1 & H2 & H3 & ->)].
        -- apply in_seq in Hk. exists 0, n, k. repeat split; auto. unfold ndim; lia. unfold before; cbn. rewrite Nat.add_0_r. auto.
        -- exists (S j), x, k. repeat split; auto. rewrite T. f_equal. f_equal. lia.
      * intros (j & x & k & H1 & H2 & H3 & ->). destruct j as [|j]; cbn in H1.
        -- injection H1 as <-. left. exists k. rewrite in_seq. unfold ndim in H3. unfold before; cbn. rewrite Nat.add_0_r. split; auto. lia.
        -- right. exists j, x, k. repeat split; auto. rewrite T. f_equal. f_equal. lia.
Qed.
Lemma factor_inserts_in w m p e : In e (factor_inserts w m p) <->
  exists l j n k, l < fdim w (snd p) /\ nth_error (f_nodes (fa w (snd p))) j = Some n /\ is_anchor (nd w n) = false /\ k < ndim w n /\
    e = (fst p + l, map_get m (n_id (nd w n)) + k, f_J (fa w (snd p)) l (before (ndim w) (f_nodes (fa w (snd p))) j + k)).
Proof.
  unfold factor_inserts. rewrite in_flat_map. split.
  - intros (l & Hl & H). apply in_seq in Hl. apply row_inserts_in in H. destruct H as (j & n & k & H1 & H2 & H3 & ->).
    exists l, j, n, k. repeat split; auto. unfold fdim; lia. f_equal. f_equal. lia.
  - intros (l & j & n & k & H0 & H1 & H2 & H3 & ->). exists l. rewrite in_seq. split; [unfold fdim in H0; lia|].
    apply row_inserts_in. exists j, n, k. repeat split; auto. f_equal. f_equal. lia.
Qed.
Lemma info_inserts_in w p e : In e (info_inserts w p) <->
  exists l k, l <= k < fdim w (snd p) /\
    e = (fst p + l, fst p + k, (robust_eval (f_rob (fa w (snd p))) (f_weight (fa w (snd p))) (sqrt (f_chi2 (fa w (snd p)))) * f_info (fa w (snd p)) l k)%R).
Proof.
  unfold info_inserts. rewrite in_flat_map. split.
  - intros (l & Hl & H). apply in_seq in Hl. apply in_map_iff in H. destruct H as (k & <- & Hk). apply in_seq in Hk.
    exists l, k. split; auto. unfold fdim. lia.
  - intros (l & k & H & ->). unfold fdim in H. exists l. rewrite in_seq. split; [lia|]. apply in_map_iff. exists k. split; auto. apply in_seq. lia.
Qed.
(** the columns assigned to active nodes *)
Definition good_map (w : world) (m : list (nat * nat)) : Prop :=
  forall i l, nth_error (g_active (w_graph w)) i = Some l -> map_get m (n_id (nd w l)) = col w i.
Lemma cols_disjoint w m n n' k k' : good_map w m -> In n (g_active (w_graph w)) -> In n' (g_active (w_graph w)) ->
  k < ndim w n -> k' < ndim w n' -> map_get m (n_id (nd w n)) + k = map_get m (n_id (nd w n')) + k' -> n = n' /\ k = k'.
Proof.
  intros G I I' L L' E. apply In_nth_error in I. destruct I as [i I]. apply In_nth_error in I'. destruct I' as [i' I'].
  rewrite (G _ _ I), (G _ _ I') in E. destruct (block_disjoint _ _ _ _ _ _ _ _ I I' L L' E) as [-> ->]. split; auto. congruence.
Qed.
Lemma row_inserts_nodup w m J off l ns : good_map w m ->
  (forall n, In n ns -> is_anchor (nd w n) = false -> In n (g_active (w_graph w))) ->
  NoDup (filter (fun n => negb (is_anchor (nd w n))) ns) ->
  forall tk, NoDup (map fst (row_inserts w m J off l tk ns)).
Proof.
  intros G. induction ns as [|n ns IH]; intros HA ND tk; cbn; [constructor|]. cbn in ND.
  destruct (is_anchor (nd w n)) eqn:An; cbn in ND.
  - apply IH; auto. intros; apply HA; cbn; auto.
  - inversion ND; subst. rewrite map_app, map_map. apply NoDup_app_intro.
    + cbn. apply Injective_map_NoDup; [|apply seq_NoDup]. intros a b E. injection E. lia.
    + apply IH; auto. intros; apply HA; cbn; auto.
    + intros x Hx I. apply in_map_iff in Hx. destruct Hx as (k & <- & Hk). apply in_seq in Hk. cbn in I.
      apply in_map_iff in I. destruct I as (e & E & I). apply row_inserts_in in I. destruct I as (j & n' & k' & H1' & H2' & H3' & ->).
      cbn in E. injection E as E. apply nth_error_In in H1'.
      symmetry in E. destruct (cols_disjoint w m n n' k k' G) as [<- _]; auto.
      * apply HA; cbn; auto.
      * apply HA; cbn; auto.
      * unfold ndim; lia.
      * apply H1. apply filter_In. split; auto. rewrite An. reflexivity.
Qed.
Lemma factor_inserts_nodup w m p : good_map w m ->
  (forall n, In n (f_nodes (fa w (snd p))) -> is_anchor (nd w n) = false -> In n (g_active (w_graph w))) ->
  NoDup (filter (fun n => negb (is_anchor (nd w n))) (f_nodes (fa w (snd p)))) ->
  NoDup (map fst (factor_inserts w m p)).
Proof.
  intros G HA ND. unfold factor_inserts. rewrite flat_map_concat_map, concat_map, map_map, <- flat_map_concat_map.
  apply NoDup_flat_map; [apply seq_NoDup| |].
  - intros l _. apply row_inserts_nodup; auto.
  - intros a b x _ _ N I1 I2. apply in_map_iff in I1. destruct I1 as (e1 & E1 & I1). apply in_map_iff in I2. destruct I2 as (e2 & E2 & I2).
    apply row_inserts_in in I1. apply row_inserts_in in I2. destruct I1 as (j & n & k & _ & _ & _ & ->). destruct I2 as (j' & n' & k' & _ & _ & _ & ->).
    cbn in *. subst x. injection E2. lia.
Qed.
Lemma info_inserts_nodup w p : NoDup (map fst (info_inserts w p)).
Proof.
  unfold info_inserts. rewrite flat_map_concat_map, concat_map, map_map, <- flat_map_concat_map.
  apply NoDup_flat_map; [apply seq_NoDup| |].
  - intros l _. rewrite map_map. cbn. apply Injective_map_NoDup; [|apply seq_NoDup]. intros a b E. injection E. lia.
  - intros a b x _ _ N I1 I2. rewrite map_map in *. apply in_map_iff in I1. destruct I1 as (e1 & E1 & I1). apply in_map_iff in I2. destruct I2 as (e2 & E2 & I2).
    cbn in *. subst x. injection E2. lia.
Qed.
(** blocks of rows of different factors are disjoint *)
Lemma flat_map_rows_nodup w (g : nat * loc -> list (nat * nat * R)) fs : forall off,
  (forall p, In p (index_factors w off fs) -> NoDup (map fst (g p))) ->
  (forall p e, In p (index_factors w off fs) -> In e (g p) -> fst p <= fst (fst e) < fst p + fdim w (snd p)) ->
  NoDup (map fst (flat_map g (index_factors w off fs))).
Proof.
  induction fs as [|l fs IH]; intros off H1 H2; cbn; [constructor|]. rewrite map_app. apply NoDup_app_intro.
  - apply H1; cbn; auto.
  - apply IH; intros; [apply H1 | apply H2]; cbn; auto.
  - intros x Hx I. apply in_map_iff in Hx. destruct Hx as (e & <- & He). apply H2 in He; [|cbn; auto]. cbn in He.
    apply in_map_iff in I. destruct I as (e' & E & I). apply in_flat_map in I. destruct I as (p & Hp & I).
    pose proof (index_factors_in _ _ _ _ Hp) as (i & _ & F). apply H2 in I; [|cbn; auto].
    assert (fst (fst e') = fst (fst e)) by congruence. unfold fdim in He. lia.
Qed.
