(** Proofs about Dense.v. *)
Require Import Reals List Arith Bool Lia Lra Permutation.
From Verif Require Import SO3 Nodes NodesProofs Robust Graph GraphProofs Sums Solve SpecSolve SolveIndex SolveFrame SolveSums SolveBuild SolveProofs Optimizer OptimizerProofs Dense SpecDense.
Import ListNotations.
Local Open Scope R_scope.

(** ** sums *)
Lemma lsum_perm {A} (l l' : list A) f : Permutation l l' -> lsum l f = lsum l' f.
Proof. induction 1; rewrite ?lsum_cons; try lra. Qed.
Lemma lsum_filter {A} (p : A -> bool) l f : lsum (filter p l) f = lsum l (fun b => if p b then f b else 0).
Proof. induction l; auto. cbn [filter]. destruct (p a) eqn:E; rewrite !lsum_cons, ?E, IHl; lra. Qed.
Lemma lsum_incl (s B : list loc) f : NoDup s -> NoDup B -> incl s B -> lsum s f = lsum B (fun b => if mem b s then f b else 0).
Proof.
  intros N M I. rewrite <- (lsum_filter (fun b => mem b s)). apply lsum_perm. apply NoDup_Permutation; auto.
  - apply NoDup_filter; auto.
  - intros x. rewrite filter_In, mem_In. split; [intros X; split; auto | tauto].
Qed.
Lemma lsum_exchange {A B} (la : list A) (lb : list B) F : lsum la (fun a => lsum lb (F a)) = lsum lb (fun b => lsum la (fun a => F a b)).
Proof. induction la; [rewrite lsum_nil; symmetry; apply lsum_zero; auto|]. rewrite lsum_cons, IHla, <- lsum_plus. apply lsum_ext. intros b _. rewrite lsum_cons. reflexivity. Qed.
Lemma lsum_relation (A B : list loc) (fa fb : loc -> list loc) F : NoDup A -> NoDup B ->
  (forall a, In a A -> NoDup (fa a)) -> (forall b, In b B -> NoDup (fb b)) ->
  (forall a b, In a A -> (In b (fa a) <-> In b B /\ In a (fb b))) -> (forall a b, In b B -> In a (fb b) -> In a A) ->
  lsum A (fun a => lsum (fa a) (F a)) = lsum B (fun b => lsum (fb b) (fun a => F a b)).
Proof.
  intros NA NB Na Nb R C.
  rewrite (lsum_ext A _ (fun a => lsum B (fun b => if mem b (fa a) then F a b else 0))).
  2:{ intros a Ia. apply lsum_incl; auto. intros b Ib. apply R in Ib; tauto. }
  rewrite lsum_exchange. apply lsum_ext. intros b Ib.
  rewrite (lsum_incl (fb b) A) by (auto; intros a Ia; eauto). apply lsum_ext. intros a Ia.
  destruct (mem b (fa a)) eqn:E1; destruct (mem a (fb b)) eqn:E2; auto.
  - apply mem_In in E1. apply R in E1; auto. destruct E1 as [_ E1]. apply mem_In in E1. congruence.
  - apply mem_In in E2. assert (X : In b (fa a)) by (apply R; auto). apply mem_In in X. congruence.
Qed.
Lemma sumn_inside n off N h : (off + N <= n)%nat -> sumn n (fun i => if inside off N i then h (i - off)%nat else 0) = sumn N h.
Proof.
  intros L. replace n with (off + (N + (n - off - N)))%nat by lia. rewrite sumn_app, (sumn_zero off), sumn_app.
  2:{ intros i Hi. unfold inside. destruct (Nat.leb_spec off i); [lia|]. reflexivity. }
  rewrite (sumn_zero (n - off - N)).
  2:{ intros i Hi. unfold inside. destruct (Nat.ltb_spec (off + (N + i)) (off + N)); [lia|]. rewrite andb_false_r. reflexivity. }
  rewrite Rplus_0_l, Rplus_0_r. apply sumn_ext. intros i Hi. unfold inside.
  destruct (Nat.leb_spec off (off + i)); [|lia]. destruct (Nat.ltb_spec (off + i) (off + N)); [|lia]. cbn. f_equal. lia.
Qed.
Lemma inside_true off N i : inside off N i = true -> (off <= i < off + N)%nat.
Proof. unfold inside. rewrite andb_true_iff, Nat.leb_le, Nat.ltb_lt. auto. Qed.

(** ** blocks *)
(** J restricted to the block of columns c .. c+N applied to the block off .. off+N of x *)
Definition part (f : factor) (c off N : nat) (x : vec) : vec := fun l => sumn N (fun a => f_J f l (c + a)%nat * x (off + a)%nat).
Lemma quad_sum_l d W N (X : nat -> nat -> R) y : quad d W (fun l => sumn N (fun a => X a l)) y = sumn N (fun a => quad d W (X a) y).
Proof.
  induction N.
  - cbn. unfold quad. apply sumn_zero. intros i _. apply sumn_zero. intros k _. ring.
  - cbn [sumn]. rewrite <- IHN, <- quad_plus_l. apply quad_ext; auto.
Qed.
Lemma quad_sum_r d W N x (Y : nat -> nat -> R) : quad d W x (fun l => sumn N (fun a => Y a l)) = sumn N (fun a => quad d W x (Y a)).
Proof.
  induction N.
  - cbn. unfold quad. apply sumn_zero. intros i _. apply sumn_zero. intros k _. ring.
  - cbn [sumn]. rewrite <- IHN, <- quad_plus_r. apply quad_ext; auto.
Qed.
Lemma quad_scal_l d W c x y : quad d W (fun l => x l * c) y = c * quad d W x y.
Proof. unfold quad. rewrite <- sumn_scal. apply sumn_ext. intros i _. rewrite <- sumn_scal. apply sumn_ext. intros k _. ring. Qed.
Lemma quad_scal_r d W c x y : quad d W x (fun l => y l * c) = c * quad d W x y.
Proof. unfold quad. rewrite <- sumn_scal. apply sumn_ext. intros i _. rewrite <- sumn_scal. apply sumn_ext. intros k _. ring. Qed.
Lemma add_grad_form n x off N c f g : (off + N <= n)%nat ->
  vdot n x (add_grad off N c f g) = vdot n x g + quad (f_dim f) (f_info f) (part f c off N x) (f_r f).
Proof.
  intros L. unfold vdot, part. rewrite quad_sum_l.
  rewrite <- (sumn_inside n off N (fun a => quad (f_dim f) (f_info f) (fun l => f_J f l (c + a)%nat * x (off + a)%nat) (f_r f)) L).
  rewrite <- sumn_plus. apply sumn_ext. intros i Hi. unfold add_grad. destruct (inside off N i) eqn:E; [|ring].
  apply inside_true in E. rewrite quad_scal_l. replace (off + (i - off))%nat with i by lia. unfold quad. ring.
Qed.
Lemma add_hess_form n x y off N c off2 M c2 f H : (off + N <= n)%nat -> (off2 + M <= n)%nat ->
  quad n (add_hess off N c off2 M c2 f H) x y = quad n H x y + quad (f_dim f) (f_info f) (part f c off N x) (part f c2 off2 M y).
Proof.
  intros L L2. unfold part. rewrite quad_sum_l.
  rewrite <- (sumn_inside n off N (fun a => quad (f_dim f) (f_info f) (fun l => f_J f l (c + a)%nat * x (off + a)%nat) _) L).
  unfold quad at 1 2. rewrite <- sumn_plus. apply sumn_ext. intros i Hi.
  destruct (inside off N i) eqn:E.
  - rewrite quad_sum_r. rewrite <- (sumn_inside n off2 M (fun a => quad (f_dim f) (f_info f) _ (fun l => f_J f l (c2 + a)%nat * y (off2 + a)%nat)) L2).
    rewrite <- sumn_plus. apply sumn_ext. intros j Hj. unfold add_hess. rewrite E. cbn [andb]. destruct (inside off2 M j) eqn:E2; [|ring].
    apply inside_true in E. apply inside_true in E2. rewrite quad_scal_l, quad_scal_r.
    replace (off + (i - off))%nat with i by lia. replace (off2 + (j - off2))%nat with j by lia. unfold quad. ring.
  - rewrite Rplus_0_r. apply sumn_ext. intros j Hj. unfold add_hess. rewrite E. reflexivity.
Qed.

(** ** indices *)
Lemma find_col_spec w ns : forall c m l, NoDup (map (fun l => n_id (nd w l)) ns) -> nth_error ns m = Some l ->
  find_col w (n_id (nd w l)) c ns = Some (c + before (ndim w) ns m)%nat.
Proof.
  induction ns as [|a ns IH]; intros c m l N H; [destruct m; discriminate|]. cbn [find_col]. inversion N; subst. destruct m; cbn in H.
  - injection H as ->. rewrite Nat.eqb_refl. unfold before. cbn. f_equal. lia.
  - destruct (Nat.eqb_spec (n_id (nd w a)) (n_id (nd w l))) as [E|E].
    + exfalso. apply H2. rewrite E. apply in_map_iff. exists l. split; auto. eapply nth_error_In; eauto.
    + rewrite (IH _ m l H3 H). unfold before, ndim. cbn. f_equal. lia.
Qed.
Lemma find_id_spec ids : forall k m id, NoDup ids -> nth_error ids m = Some id -> find_id id k ids = Some (k + m)%nat.
Proof.
  induction ids as [|a ids IH]; intros k m id N H; [destruct m; discriminate|]. cbn [find_id]. inversion N; subst. destruct m; cbn in H.
  - injection H as ->. rewrite Nat.eqb_refl. f_equal. lia.
  - destruct (Nat.eqb_spec a id) as [->|E]; [exfalso; apply H2; eapply nth_error_In; eauto|]. rewrite (IH _ m id H3 H). f_equal. lia.
Qed.
Lemma dense_offsets_nth w ns : forall N m l, nth_error ns m = Some l -> nth m (dense_offsets w N ns) 0%nat = (N + before (ndim w) ns m)%nat.
Proof.
  induction ns as [|a ns IH]; intros N m l H; [destruct m; discriminate|]. destruct m; cbn in *.
  - unfold before. cbn. lia.
  - rewrite (IH _ _ _ H). unfold before, ndim. cbn. lia.
Qed.
Lemma NoDup_map_sub {A B} (f : A -> B) s t : NoDup (map f t) -> NoDup s -> incl s t -> NoDup (map f s).
Proof.
  intros N M I. induction M as [|a s NI M IH]; cbn; constructor.
  - intros X. apply in_map_iff in X. destruct X as (b & E & Ib). assert (b = a); [|subst; auto].
    assert (Ia : In a t) by (apply I; cbn; auto). assert (Ib' : In b t) by (apply I; cbn; auto).
    clear - N E Ia Ib'. induction t as [|c t IH]; [destruct Ia|]. cbn in N. inversion N; subst. destruct Ia as [->|Ia], Ib' as [->|Ib']; auto.
    + exfalso. apply H1. rewrite <- E. apply in_map; auto.
    + exfalso. apply H1. rewrite E. apply in_map; auto.
  - apply IH. intros x Hx. apply I. cbn. auto.
Qed.
Lemma jac_dir_sum dim J i ns d : forall c, NoDup ns ->
  jac_dir dim J i c ns d = lsum ns (fun n => sumn (dim n) (fun k => J i (c + before dim ns (index_of n ns) + k)%nat * d n k)).
Proof.
  induction ns as [|a ns IH]; intros c N; auto. inversion N; subst. cbn [jac_dir]. rewrite lsum_cons, IH by auto. f_equal.
  - apply sumn_ext. intros k _. cbn [index_of]. rewrite Nat.eqb_refl. unfold before. cbn. rewrite Nat.add_0_r. reflexivity.
  - apply lsum_ext. intros n In_. apply sumn_ext. intros k _. cbn [index_of]. destruct (Nat.eqb_spec a n) as [->|_]; [contradiction|].
    unfold before. cbn. f_equal. f_equal. lia.
Qed.

(** ** the loops *)
Section Dense.
Variable w : world.     (* after evaluation *)
Hypothesis WF : dwf w.
Let ns := g_nodes (w_graph w).
Let ids := map (fun l => n_id (nd w l)) ns.
Let offs := dense_offsets w 0 ns.
Let n := g_stateDim (w_graph w).
Let offset l := before (ndim w) ns (index_of l ns).
Let colof f l := before (ndim w) (f_nodes (fa w f)) (index_of l (f_nodes (fa w f))).

Lemma off_of l : In l ns -> find_id (n_id (nd w l)) 0 ids = Some (index_of l ns) /\ nth (index_of l ns) offs 0%nat = offset l /\ (offset l + ndim w l <= n)%nat.
Proof.
  intros I. pose proof (index_of_nth l ns I) as E. split; [|split].
  - change (Some (index_of l ns)) with (Some (0 + index_of l ns)%nat). apply find_id_spec; [apply (d_ids _ WF)|]. unfold ids. rewrite nth_error_map, E. reflexivity.
  - apply (dense_offsets_nth w ns 0 _ l E).
  - unfold n, offset. rewrite (d_state _ WF). fold ns. rewrite <- (before_S (ndim w) ns _ l E), <- before_all.
    apply before_mono. assert (index_of l ns < length ns)%nat by (apply nth_error_Some; congruence). lia.
Qed.
Lemma factor_ids_nodup f : In f (g_factors (w_graph w)) -> NoDup (map (fun l => n_id (nd w l)) (f_nodes (fa w f))).
Proof. intros I. eapply NoDup_map_sub; [apply (d_ids _ WF) | apply (d_distinct _ WF); auto | intros l Il; eapply (d_neigh _ WF); eauto]. Qed.
Lemma blocks_spec f off N c ms : forall c2 g H x y, (off + N <= n)%nat -> (forall m, In m ms -> In m ns) -> (c2 + lsumn (map (ndim w) ms) <= f_alldim f)%nat ->
  exists g' H', dense_blocks w ids offs n off N c f c2 ms (g, H) = Some (g', H') /\
  vdot n x g' = vdot n x g + INR (length ms) * quad (f_dim f) (f_info f) (part f c off N x) (f_r f) /\
  quad n H' x y = quad n H x y + quad (f_dim f) (f_info f) (part f c off N x) (fun i => jac_dir (ndim w) (f_J f) i c2 ms (dinc w y)).
Proof.
  induction ms as [|m ms IH]; intros c2 g H x y L I LE.
  - exists g, H. split; [reflexivity|]. split. { cbn. ring. }
    cbn [jac_dir]. replace (quad (f_dim f) (f_info f) (part f c off N x) (fun _ => 0)) with 0; [ring|].
    unfold quad. symmetry. apply sumn_zero. intros i _. apply sumn_zero. intros k _. ring.
  - cbn [dense_blocks fst snd]. destruct (off_of m) as (A & B & C); [apply I; cbn; auto|]. fold (ndim w m). rewrite A. cbv zeta. rewrite B.
    cbn [map lsumn] in LE.
    replace (andb _ _) with true. 2:{ symmetry. rewrite !andb_true_iff, !Nat.leb_le. lia. }
    destruct (IH (c2 + ndim w m)%nat (add_grad off N c f g) (add_hess off N c (offset m) (ndim w m) c2 f H) x y L) as (g' & H' & E & G1 & H1); auto.
    { intros m' Im. apply I. cbn. auto. } { lia. }
    exists g', H'. split; [exact E|]. split.
    + rewrite G1, add_grad_form by auto. cbn [length]. rewrite S_INR. ring.
    + rewrite H1, add_hess_form by auto. cbn [jac_dir]. rewrite Rplus_assoc. f_equal.
      rewrite <- quad_plus_r. reflexivity.
Qed.
Lemma factor_spec l f g H x y : In l ns -> In f (n_factors (nd w l)) ->
  exists g' H', dense_factor w ids offs n (offset l) l (Some (g, H)) f = Some (g', H') /\
  vdot n x g' = vdot n x g + arity w f * quad (fdim w f) (f_info (fa w f)) (part (fa w f) (colof f l) (offset l) (ndim w l) x) (f_r (fa w f)) /\
  quad n H' x y = quad n H x y + quad (fdim w f) (f_info (fa w f)) (part (fa w f) (colof f l) (offset l) (ndim w l) x)
      (fun i => jac_dir (ndim w) (f_J (fa w f)) i 0 (f_nodes (fa w f)) (dinc w y)).
Proof.
  intros Il If. apply (d_listed _ WF) in If; auto. destruct If as [If Ilf].
  pose proof (index_of_nth l _ Ilf) as E. unfold dense_factor.
  rewrite (find_col_spec w (f_nodes (fa w f)) 0 _ l (factor_ids_nodup f If) E). fold (colof f l). rewrite Nat.add_0_l. fold (ndim w l).
  assert (LE : (colof f l + ndim w l <= f_alldim (fa w f))%nat).
  { rewrite (d_cols _ WF f If). unfold colof. rewrite <- (before_S (ndim w) _ _ l E), <- before_all. apply before_mono.
    assert (index_of l (f_nodes (fa w f)) < length (f_nodes (fa w f)))%nat by (apply nth_error_Some; congruence). lia. }
  apply Nat.leb_le in LE. rewrite LE.
  apply blocks_spec; [apply off_of; auto | intros m Im; eapply (d_neigh _ WF); eauto | rewrite (d_cols _ WF f If); lia].
Qed.
Lemma factors_spec l fs : forall g H x y, In l ns -> (forall f, In f fs -> In f (n_factors (nd w l))) ->
  exists g' H', fold_left (dense_factor w ids offs n (offset l) l) fs (Some (g, H)) = Some (g', H') /\
  vdot n x g' = vdot n x g + lsum fs (fun f => arity w f * quad (fdim w f) (f_info (fa w f)) (part (fa w f) (colof f l) (offset l) (ndim w l) x) (f_r (fa w f))) /\
  quad n H' x y = quad n H x y + lsum fs (fun f => quad (fdim w f) (f_info (fa w f)) (part (fa w f) (colof f l) (offset l) (ndim w l) x)
      (fun i => jac_dir (ndim w) (f_J (fa w f)) i 0 (f_nodes (fa w f)) (dinc w y))).
Proof.
  induction fs as [|f fs IH]; intros g H x y Il I.
  - exists g, H. rewrite !lsum_nil. repeat split; try ring.
  - cbn [fold_left]. destruct (factor_spec l f g H x y Il) as (g1 & H1 & E1 & G1 & Q1); [apply I; cbn; auto|]. rewrite E1.
    destruct (IH g1 H1 x y Il) as (g2 & H2 & E2 & G2 & Q2); [intros; apply I; cbn; auto|]. exists g2, H2. split; auto.
    rewrite !lsum_cons, G2, G1, Q2, Q1. split; ring.
Qed.
Lemma rows_spec ls : forall pre g H x y, ns = pre ++ ls ->
  exists g' H', dense_rows w ids offs n (lsumn (map (ndim w) pre)) ls (Some (g, H)) = Some (g', H') /\
  vdot n x g' = vdot n x g + lsum ls (fun l => lsum (n_factors (nd w l)) (fun f =>
     arity w f * quad (fdim w f) (f_info (fa w f)) (part (fa w f) (colof f l) (offset l) (ndim w l) x) (f_r (fa w f)))) /\
  quad n H' x y = quad n H x y + lsum ls (fun l => lsum (n_factors (nd w l)) (fun f =>
     quad (fdim w f) (f_info (fa w f)) (part (fa w f) (colof f l) (offset l) (ndim w l) x)
      (fun i => jac_dir (ndim w) (f_J (fa w f)) i 0 (f_nodes (fa w f)) (dinc w y)))).
Proof.
  induction ls as [|l ls IH]; intros pre g H x y E.
  - exists g, H. rewrite !lsum_nil. repeat split; try ring.
  - cbn [dense_rows]. assert (ND : NoDup ns) by (eapply NoDup_map_inv'; apply (d_ids _ WF)).
    assert (OF : offset l = lsumn (map (ndim w) pre)).
    { unfold offset. rewrite (index_of_unique l ns (length pre)); auto.
      - unfold before. rewrite E, firstn_app, Nat.sub_diag, firstn_all. cbn. rewrite app_nil_r. reflexivity.
      - rewrite E, nth_error_app2, Nat.sub_diag by lia. reflexivity. }
    assert (Il : In l ns) by (rewrite E; apply in_app_iff; cbn; auto).
    destruct (factors_spec l (n_factors (nd w l)) g H x y Il ltac:(auto)) as (g1 & H1 & E1 & G1 & Q1). rewrite OF in E1. rewrite E1.
    destruct (IH (pre ++ [l]) g1 H1 x y) as (g2 & H2 & E2 & G2 & Q2); [rewrite <- app_assoc; auto|].
    rewrite map_app, lsumn_app in E2. cbn [map lsumn] in E2. rewrite Nat.add_0_r in E2. exists g2, H2. split; [exact E2|].
    rewrite !lsum_cons, G2, G1, Q2, Q1. split; ring.
Qed.
Lemma part_sum f i x : In f (g_factors (w_graph w)) ->
  lsum (f_nodes (fa w f)) (fun l => part (fa w f) (colof f l) (offset l) (ndim w l) x i) = jac_dir (ndim w) (f_J (fa w f)) i 0 (f_nodes (fa w f)) (dinc w x).
Proof. intros I. rewrite jac_dir_sum by (apply (d_distinct _ WF); auto). apply lsum_ext. intros l _. unfold part. apply sumn_ext. intros k _. reflexivity. Qed.
Lemma quad_lsum_l {A} d W (ls : list A) (X : A -> vec) y : lsum ls (fun l => quad d W (X l) y) = quad d W (fun i => lsum ls (fun l => X l i)) y.
Proof.
  induction ls; [unfold quad; rewrite lsum_nil; symmetry; apply sumn_zero; intros; apply sumn_zero; intros; rewrite lsum_nil; ring|].
  rewrite lsum_cons, IHls, <- quad_plus_l. apply quad_ext; auto.
Qed.
Lemma all_rows x y : exists g' H', dense_rows w ids offs n 0 ns (Some (fun _ => 0, fun _ _ => 0)) = Some (g', H') /\
  vdot n x g' = lsum (g_factors (w_graph w)) (fun f => arity w f * quad (fdim w f) (f_info (fa w f)) (fun i => jac_dir (ndim w) (f_J (fa w f)) i 0 (f_nodes (fa w f)) (dinc w x)) (f_r (fa w f))) /\
  quad n H' x y = lsum (g_factors (w_graph w)) (fun f => quad (fdim w f) (f_info (fa w f))
     (fun i => jac_dir (ndim w) (f_J (fa w f)) i 0 (f_nodes (fa w f)) (dinc w x)) (fun i => jac_dir (ndim w) (f_J (fa w f)) i 0 (f_nodes (fa w f)) (dinc w y))).
Proof.
  destruct (rows_spec ns [] (fun _ => 0) (fun _ _ => 0) x y eq_refl) as (g' & H' & E & G & Q). exists g', H'. split; [exact E|].
  assert (ND : NoDup ns) by (eapply NoDup_map_inv'; apply (d_ids _ WF)).
  rewrite (lsum_relation ns (g_factors (w_graph w)) (fun l => n_factors (nd w l)) (fun f => f_nodes (fa w f))) in G; auto using (d_factors _ WF), (d_once _ WF), (d_distinct _ WF), (d_listed _ WF).
  2:{ intros. eapply (d_neigh _ WF); eauto. }
  rewrite (lsum_relation ns (g_factors (w_graph w)) (fun l => n_factors (nd w l)) (fun f => f_nodes (fa w f))) in Q; auto using (d_factors _ WF), (d_once _ WF), (d_distinct _ WF), (d_listed _ WF).
  2:{ intros. eapply (d_neigh _ WF); eauto. }
  split.
  - rewrite G. unfold vdot. rewrite sumn_zero by (intros; ring). rewrite Rplus_0_l. apply lsum_ext. intros f If.
    rewrite lsum_scal. f_equal. rewrite quad_lsum_l. apply quad_ext; auto. intros i _. apply part_sum; auto.
  - rewrite Q. unfold quad at 1. rewrite sumn_zero by (intros; apply sumn_zero; intros; ring). rewrite Rplus_0_l. apply lsum_ext. intros f If.
    rewrite quad_lsum_l. apply quad_ext; auto. intros i _. apply part_sum; auto.
Qed.
End Dense.

(** ** dwf only depends on the skeleton *)
Lemma dwf_skel w w' : skel w w' -> dwf w -> dwf w'.
Proof.
  intros SK [A B C D E F G H I J]. pose proof (skel_ndim _ _ SK) as Dn.
  assert (NF : forall l, n_factors (nd w' l) = n_factors (nd w l)) by (intros l; apply (sk_node _ _ SK)).
  assert (FN : forall l, f_nodes (fa w' l) = f_nodes (fa w l)) by (intros l; apply (sk_factor _ _ SK)).
  constructor; rewrite ?(sk_graph _ _ SK), ?(sk_nlen _ _ SK), ?(sk_flen _ _ SK), ?Dn; auto.
  - erewrite map_ext; [exact B|]. intros l. apply (sk_node _ _ SK).
  - intros f l. rewrite FN. apply F.
  - intros f. rewrite FN. apply G.
  - intros f If. rewrite FN, (sk_alldim _ _ SK). apply H; auto.
  - intros l. rewrite NF. apply I.
  - intros l f. rewrite NF, FN. apply J.
Qed.
(** what calculate_gradient_hessian computes *)
Lemma dense_gh_spec w : dwf w -> exists w' g H, dense_gh w = Some (w', (g_stateDim (w_graph w), g, H)) /\ skel w w' /\ w_nodes w' = w_nodes w /\
  (forall x, vdot (g_stateDim (w_graph w)) x g = lsum (g_factors (w_graph w)) (fun f => arity w f * quad (fdim w f) (f_info (fa w f)) (jac_times w f (dinc w x)) (res_at w f))) /\
  (forall x y, quad (g_stateDim (w_graph w)) H x y = lsum (g_factors (w_graph w)) (fun f => quad (fdim w f) (f_info (fa w f)) (jac_times w f (dinc w x)) (jac_times w f (dinc w y)))).
Proof.
  intros WF. set (w1 := eval_factors w). pose proof (skel_eval w) as SK. fold w1 in SK. pose proof (dwf_skel _ _ SK WF) as WF1.
  destruct (eval_factors_spec w) as (A & B & C & D). fold w1 in A, B, C, D.
  assert (EV : forall f, In f (g_factors (w_graph w)) -> fa w1 f = evalG w (fa w f)).
  { intros f If. rewrite D. replace (mem f (g_factors (w_graph w))) with true by (symmetry; apply mem_In; auto).
    pose proof (d_valid _ WF f If) as V. apply Nat.ltb_lt in V. rewrite V. reflexivity. }
  pose proof (skel_ndim _ _ SK) as Dn.
  assert (DI : forall x, dinc w1 x = dinc w x). { intros x. unfold dinc. rewrite Dn, B. reflexivity. }
  unfold dense_gh. fold w1. cbv zeta. replace (g_stateDim (w_graph w)) with (g_stateDim (w_graph w1)) by (rewrite B; reflexivity).
  destruct (all_rows w1 WF1 (fun _ => 0) (fun _ => 0)) as (g & H & E & _ & _). rewrite E.
  exists w1, g, H. split; [reflexivity|]. split; auto. split; auto.
  assert (U : forall x y, vdot (g_stateDim (w_graph w1)) x g = lsum (g_factors (w_graph w1)) (fun f => arity w1 f * quad (fdim w1 f) (f_info (fa w1 f)) (fun i => jac_dir (ndim w1) (f_J (fa w1 f)) i 0 (f_nodes (fa w1 f)) (dinc w1 x)) (f_r (fa w1 f))) /\
   quad (g_stateDim (w_graph w1)) H x y = lsum (g_factors (w_graph w1)) (fun f => quad (fdim w1 f) (f_info (fa w1 f))
     (fun i => jac_dir (ndim w1) (f_J (fa w1 f)) i 0 (f_nodes (fa w1 f)) (dinc w1 x)) (fun i => jac_dir (ndim w1) (f_J (fa w1 f)) i 0 (f_nodes (fa w1 f)) (dinc w1 y)))).
  { intros x y. destruct (all_rows w1 WF1 x y) as (g' & H' & E' & P). rewrite E in E'. injection E' as <- <-. exact P. }
  split.
  - intros x. destruct (U x x) as [-> _]. rewrite B. apply lsum_ext. intros f If. unfold arity, fdim, jac_times, jac_at, res_at. rewrite (EV f If), DI, Dn. reflexivity.
  - intros x y. destruct (U x y) as [_ ->]. rewrite B. apply lsum_ext. intros f If. unfold fdim, jac_times, jac_at. rewrite (EV f If), !DI, Dn. reflexivity.
Qed.

(** ** updates *)
Lemma dense_update_spec dx ls : forall start w, NoDup ls -> (forall l, In l ls -> (l < length (w_nodes w))%nat) ->
  (start + lsumn (map (ndim w) ls) <= g_stateDim (w_graph w))%nat ->
  exists w', dense_update_from dx start ls w = Some w' /\ skel w w' /\ w_factors w' = w_factors w /\
    (forall l, nax (n_data (nd w' l)) = nax (n_data (nd w l))) /\
    (forall l, ~ In l ls -> nd w' l = nd w l) /\
    (forall m l, nth_error ls m = Some l -> nst (n_data (nd w' l)) = val_update (nst (n_data (nd w l))) (fun k => dx (start + before (ndim w) ls m + k)%nat)).
Proof.
  induction ls as [|a ls IH]; intros start w ND V LE; cbn [dense_update_from].
  - exists w. split; auto. split; [apply skel_refl|]. repeat split; auto. intros [|m]; discriminate.
  - cbn [map lsumn] in LE. unfold ndim in LE at 1. destruct (Nat.leb_spec (start + n_dim (nd w a)) (g_stateDim (w_graph w))); [|lia].
    inversion ND; subst.
    set (w1 := on_node w a (fun n => node_set_data (node_update (n_data n) (fun k => dx (start + k)%nat)) n)).
    assert (S1 : skel w w1).
    { apply skel_of_nodes; auto. cbn; apply upd_length. intros l. unfold w1. rewrite nd_on_node. destruct (andb _ _); [eauto|].
      exists (n_data (nd w l)). rewrite node_set_data_self; auto. }
    destruct (IH (start + n_dim (nd w a))%nat w1) as (w' & E & S2 & F & AX & O & U); auto.
    { intros l Il. rewrite (sk_nlen _ _ S1). apply V. cbn; auto. }
    { rewrite (skel_ndim _ _ S1), (sk_graph _ _ S1). lia. }
    assert (Va : (a < length (w_nodes w))%nat) by (apply V; cbn; auto). apply Nat.ltb_lt in Va.
    exists w'. split; [exact E|]. split; [eapply skel_trans; eauto|]. split; [rewrite F; reflexivity|]. split; [|split].
    + intros l. rewrite AX. unfold w1. rewrite nd_on_node. destruct (andb _ _); reflexivity.
    + intros l N. rewrite O by (intros X; apply N; cbn; auto). unfold w1. rewrite nd_on_node. destruct (Nat.eqb_spec l a) as [->|]; auto. exfalso. apply N. cbn. auto.
    + intros [|m] l Hm; cbn in Hm.
      * injection Hm as ->. rewrite O by auto. unfold w1. rewrite nd_on_node, Nat.eqb_refl, Va. cbn. unfold before. cbn. rewrite Nat.add_0_r. reflexivity.
      * rewrite (U m l Hm), (skel_ndim _ _ S1). assert (N : l <> a) by (intros ->; apply nth_error_In in Hm; auto).
        unfold w1. rewrite nd_on_node. destruct (Nat.eqb_spec l a); [congruence|]. cbn [andb]. f_equal.
        apply FunctionalExtensionality.functional_extensionality. intros k. f_equal. unfold before, ndim. cbn. lia.
Qed.
Lemma dense_update_none dx ls : forall start w, (g_stateDim (w_graph w) < start + lsumn (map (ndim w) ls))%nat -> (start <= g_stateDim (w_graph w))%nat -> dense_update_from dx start ls w = None.
Proof.
  induction ls as [|a ls IH]; intros start w LT LE; cbn [dense_update_from map lsumn] in *; [lia|].
  unfold ndim in LT at 1. destruct (Nat.leb_spec (start + n_dim (nd w a)) (g_stateDim (w_graph w))); auto.
  set (w1 := on_node w a _). assert (S1 : skel w w1).
  { apply skel_of_nodes; auto. cbn; apply upd_length. intros l. unfold w1. rewrite nd_on_node. destruct (andb _ _); [eauto|].
    exists (n_data (nd w l)). rewrite node_set_data_self; auto. }
  apply IH; rewrite (sk_graph _ _ S1), ?(skel_ndim _ _ S1); lia.
Qed.
Lemma dense_update_frame dx ls : forall start w w', dense_update_from dx start ls w = Some w' -> skel w w' /\ w_factors w' = w_factors w /\
  (forall l, nax (n_data (nd w' l)) = nax (n_data (nd w l))) /\ (forall l, ~ In l ls -> nd w' l = nd w l) /\
  (forall l, nst (n_data (nd w' l)) = nst (n_data (nd w l)) \/ exists v d, nst (n_data (nd w' l)) = val_update v d).
Proof.
  induction ls as [|a ls IH]; intros start w w' H; cbn [dense_update_from] in H.
  - injection H as <-. split; [apply skel_refl|]. repeat split; auto.
  - destruct (Nat.leb_spec (start + n_dim (nd w a)) (g_stateDim (w_graph w))); [|discriminate].
    set (w1 := on_node w a _) in H. assert (S1 : skel w w1).
    { apply skel_of_nodes; auto. cbn; apply upd_length. intros l. unfold w1. rewrite nd_on_node. destruct (andb _ _); [eauto|].
      exists (n_data (nd w l)). rewrite node_set_data_self; auto. }
    destruct (IH _ _ _ H) as (S2 & F & AX & O & V). split; [eapply skel_trans; eauto|]. split; [rewrite F; reflexivity|]. split; [|split].
    + intros l. rewrite AX. unfold w1. rewrite nd_on_node. destruct (andb _ _); reflexivity.
    + intros l N. rewrite O by (intros X; apply N; cbn; auto). unfold w1. rewrite nd_on_node. destruct (Nat.eqb_spec l a) as [->|]; auto. exfalso. apply N. cbn. auto.
    + intros l. destruct (V l) as [Q|Q]; auto. rewrite Q. unfold w1. rewrite nd_on_node. destruct (andb _ _); auto. right. cbn. eauto.
Qed.
Lemma dense_bookkeep_spec w : let w' := dense_bookkeep w in
  skel w w' /\ w_factors w' = w_factors w /\
  forall l, nd w' l = if andb (mem l (g_nodes (w_graph w))) (l <? length (w_nodes w))%nat then node_set_data (node_bookkeep (n_data (nd w l))) (nd w l) else nd w l.
Proof.
  destruct (fold_on_node (fun n => node_set_data (node_bookkeep (n_data n)) n) ltac:(intros []; reflexivity) (g_nodes (w_graph w)) w) as (A & B & C & D).
  cbv zeta. split; auto. apply skel_of_nodes; auto. intros l. unfold dense_bookkeep. rewrite D. destruct (andb _ _); eauto.
  exists (n_data (nd w l)). rewrite node_set_data_self; auto.
Qed.
Lemma dense_restore_spec w : let w' := dense_restore w in
  skel w w' /\ w_factors w' = w_factors w /\
  forall l, nd w' l = if andb (mem l (g_nodes (w_graph w))) (l <? length (w_nodes w))%nat then node_set_data (node_restore (n_data (nd w l))) (nd w l) else nd w l.
Proof.
  destruct (fold_on_node (fun n => node_set_data (node_restore (n_data n)) n) ltac:(intros []; reflexivity) (g_nodes (w_graph w)) w) as (A & B & C & D).
  cbv zeta. split; auto. apply skel_of_nodes; auto. intros l. unfold dense_restore. rewrite D. destruct (andb _ _); eauto.
  exists (n_data (nd w l)). rewrite node_set_data_self; auto.
Qed.

(** ** the dense solver as a problem of the optimizer *)
Lemma dwf_valid w : dwf w -> valid_factors w.
Proof. intros W l I. apply (d_valid _ W l I). Qed.
Lemma skel_valid w w' : skel w w' -> valid_factors w -> valid_factors w'.
Proof. intros K V l. rewrite (sk_graph _ _ K), (sk_flen _ _ K). apply V. Qed.
Lemma dstates_skel w w' : skel w w' -> dstates w ->
  (forall l, In l (g_nodes (w_graph w)) -> nst (n_data (nd w' l)) = nst (n_data (nd w l)) \/ val_set (nst (n_data (nd w' l))) = nst (n_data (nd w' l))) -> dstates w'.
Proof.
  intros K [O|O] H; [left|right]; intros l; rewrite (sk_graph _ _ K); intros I.
  - destruct (H l I) as [E|E]; auto. rewrite E. auto.
  - specialize (O l I). intros vs vs' F i. destruct (sk_factor _ _ K l) as (_ & _ & -> & _). apply O; auto.
Qed.
Lemma chi2_of_wrap_all w w' : skel w w' -> dstates w ->
  (forall l, nst (n_data (nd w' l)) = nst (n_data (nd w l)) \/ (In l (g_nodes (w_graph w)) /\ nst (n_data (nd w' l)) = val_set (nst (n_data (nd w l))))) ->
  chi2_of w' = chi2_of w.
Proof.
  intros SK [O|O] H.
  - apply chi2_of_skel; auto. intros n. destruct (H n) as [E|[I E]]; auto. rewrite E. apply O; auto.
  - unfold chi2_of. rewrite (sk_graph _ _ SK). apply lsum_ext. intros l I. unfold fchi2.
    destruct (sk_factor _ _ SK l) as (E1 & E2 & E3 & _ & E5 & _). rewrite E5. unfold fdim. rewrite E1. f_equal.
    assert (ER : forall i, res_at w' l i = res_at w l i).
    { intros i. unfold res_at. rewrite E3. apply (O l I). unfold states_of. rewrite E2.
      generalize (f_nodes (fa w l)) as s. induction s as [|a s IH]; constructor; auto. destruct (H a) as [X|[_ X]]; auto. }
    apply quad_ext; auto.
Qed.
Lemma restored w l : nst (n_data (nd (dense_restore w) l)) =
  if andb (mem l (g_nodes (w_graph w))) (l <? length (w_nodes w))%nat then val_set (nax (n_data (nd w l))) else nst (n_data (nd w l)).
Proof. destruct (dense_restore_spec w) as (_ & _ & N). rewrite N. destruct (andb _ _); reflexivity. Qed.
(** restoring after something that keeps auxiliary states, and the states outside of the graph *)
Lemma restore_same w w' : skel w w' -> (forall l, nax (n_data (nd w' l)) = nax (n_data (nd w l))) ->
  (forall l, ~ In l (g_nodes (w_graph w)) \/ (length (w_nodes w) <= l)%nat -> nst (n_data (nd w' l)) = nst (n_data (nd w l))) ->
  chi2_of (dense_restore w') = chi2_of (dense_restore w).
Proof.
  intros K A O. pose proof (dense_restore_spec w) as (K1 & _). pose proof (dense_restore_spec w') as (K2 & _).
  assert (SK : forall l, n_id (nd (dense_restore w') l) = n_id (nd (dense_restore w) l)).
  { intros l. transitivity (n_id (nd w' l)). apply (sk_node _ _ K2). transitivity (n_id (nd w l)). apply (sk_node _ _ K). symmetry. apply (sk_node _ _ K1). }
  unfold chi2_of. rewrite (sk_graph _ _ K2), (sk_graph _ _ K), (sk_graph _ _ K1). apply lsum_ext. intros f _.
  assert (ST : forall l, nst (n_data (nd (dense_restore w') l)) = nst (n_data (nd (dense_restore w) l))).
  { intros l. rewrite !restored, (sk_graph _ _ K), (sk_nlen _ _ K). destruct (mem l (g_nodes (w_graph w))) eqn:M; cbn [andb].
    - destruct (Nat.ltb_spec l (length (w_nodes w))); [rewrite A; auto | apply O; auto].
    - apply O. left. intros I. apply mem_In in I. congruence. }
  destruct (sk_factor _ _ K2 f) as (A1 & A2 & A3 & _ & A5 & _). destruct (sk_factor _ _ K f) as (B1 & B2 & B3 & _ & B5 & _).
  destruct (sk_factor _ _ K1 f) as (C1 & C2 & C3 & _ & C5 & _).
  unfold fchi2, fdim, res_at. rewrite A1, A3, A5, B1, B3, B5, C1, C3, C5. unfold states_of. rewrite A2, B2, C2.
  rewrite (map_ext (fun l => nst (n_data (nd (dense_restore w') l))) (fun l => nst (n_data (nd (dense_restore w) l)))) by auto. reflexivity.
Qed.
Definition dI (w : world) : Prop := valid_factors w /\ dstates w.
Lemma dense_lawful : lawful dense dI (fun w => Some (chi2_of w)).
Proof.
  constructor.
  - intros w w' e [V D]. cbn. unfold dense_error. rewrite (chi2_true w V). intros Q. injection Q as <- <-.
    pose proof (skel_chi2 w) as K. pose proof (chi2_world_spec w) as (A & _). cbv zeta in A. split; [|split; [|split]].
    + split. { eapply skel_valid; eauto. } eapply dstates_skel; eauto. intros l _. left. rewrite (nd_same _ w); auto.
    + reflexivity.
    + f_equal. apply chi2_of_nodes; auto.
    + f_equal. apply restore_same; auto; intros; rewrite (nd_same _ w); auto.
  - intros w w' q [V D]. cbn. unfold dense_gh. cbv zeta. destruct (dense_rows _ _ _ _ _ _ _) as [[g H]|]; [|discriminate]. intros Q. injection Q as <- <-.
    pose proof (skel_eval w) as K. pose proof (eval_factors_spec w) as (A & _). cbv zeta in A. split.
    + split. { eapply skel_valid; eauto. } eapply dstates_skel; eauto. intros l _. left. rewrite (nd_same _ w); auto.
    + f_equal. apply restore_same; auto; intros; rewrite (nd_same _ w); auto.
  - intros dx w w' [V D]. cbn. unfold dense_update. intros Q. destruct (dense_update_frame _ _ _ _ _ Q) as (K & F & AX & O & U). split.
    + split. { eapply skel_valid; eauto. } eapply dstates_skel; eauto. intros l _. destruct (U l) as [E|(v & d & E)]; auto. right. rewrite E. apply val_update_set.
    + f_equal. apply restore_same; auto. intros l [N|L]. rewrite O; auto. unfold nd. rewrite !nth_overflow; auto. rewrite (sk_nlen _ _ K); auto.
  - intros w [V D]. cbn. destruct (dense_bookkeep_spec w) as (K & F & N). split.
    + split. { eapply skel_valid; eauto. } eapply dstates_skel; eauto. intros l _. left. rewrite N. destruct (andb _ _); reflexivity.
    + f_equal. destruct (dense_restore_spec (dense_bookkeep w)) as (K2 & _). apply chi2_of_wrap_all; auto. eapply skel_trans; eauto.
      intros l. rewrite restored, (sk_graph _ _ K), (sk_nlen _ _ K), N. destruct (mem l (g_nodes (w_graph w))) eqn:M; cbn [andb]; auto.
      apply mem_In in M. destruct (l <? length (w_nodes w))%nat eqn:L; auto. right. cbn. split; auto. apply val_set_set.
  - intros w [V D]. cbn. destruct (dense_restore_spec w) as (K & F & N). split.
    + split. { eapply skel_valid; eauto. } eapply dstates_skel; eauto. intros l _. rewrite N. destruct (andb _ _); auto. right. cbn. apply val_set_set.
    + f_equal. apply restore_same; auto.
      * intros l. rewrite N. destruct (andb _ _); reflexivity.
      * intros l H. rewrite N. destruct (andb _ _) eqn:B; auto. apply andb_true_iff in B. destruct B as [B1 B2]. apply mem_In in B1. apply Nat.ltb_lt in B2. destruct H; [contradiction|lia].
Qed.
Lemma dense_total : total dense dwf.
Proof.
  constructor.
  - intros w W. cbn. unfold dense_error. rewrite (chi2_true w (dwf_valid _ W)). do 2 eexists. split; [reflexivity|]. eapply dwf_skel; [apply skel_chi2|auto].
  - intros w W. destruct (dense_gh_spec w W) as (w' & g & H & E & K & N & _). exists w', (g_stateDim (w_graph w)), g, H. split; [exact E|].
    pose proof (dwf_skel _ _ K W) as W'. split; auto. intros dx.
    destruct (dense_update_spec dx (g_nodes (w_graph w')) 0 w') as (w'' & E2 & K2 & _).
    + eapply NoDup_map_inv'. apply (d_ids _ W').
    + apply (d_nodes _ W').
    + rewrite (d_state _ W'). lia.
    + exists w''. split; [exact E2|]. eapply dwf_skel; eauto.
  - intros w W. cbn. eapply dwf_skel; [apply dense_bookkeep_spec|auto].
  - intros w W. cbn. eapply dwf_skel; [apply dense_restore_spec|auto].
Qed.
(** a node that does not count in the state dimension *)
Lemma dense_oob inv b (o : opt world) : (g_stateDim (w_graph (o_x o)) < lsumn (map (ndim (o_x o)) (g_nodes (w_graph (o_x o)))))%nat ->
  one_iteration dense inv b o = None.
Proof.
  intros L. unfold one_iteration. destruct (calculate_gradient_hessian dense (o_x o)) as [[x1 [[n g] H]]|] eqn:E; auto. cbv zeta.
  cbn in E. unfold dense_gh in E. cbv zeta in E. destruct (dense_rows _ _ _ _ _ _ _) as [[g' H']|]; [|discriminate]. injection E as <- <- <- <-.
  pose proof (skel_eval (o_x o)) as K. cbn [update_state dense]. unfold dense_update. rewrite dense_update_none; auto.
  - rewrite (sk_graph _ _ K), (skel_ndim _ _ K). lia.
  - lia.
Qed.

(** ** programs *)
Lemma filter_all {A} (p : A -> bool) s : (forall x, In x s -> p x = true) -> filter p s = s.
Proof. induction s; cbn; intros H; auto. rewrite H by auto. f_equal. auto. Qed.
Definition dense_op (o : gop) : Prop :=
  match o with ORmFactor _ _ | OSetMode _ _ | OAddEigen _ => False | ONewNode m _ => m = STANDARD | _ => True end.
Lemma nd_nth w l n : nth_error (w_nodes w) l = Some n -> nd w l = n.
Proof. apply nth_error_nth. Qed.
Lemma fa_nth w l f : nth_error (w_factors w) l = Some f -> fa w l = f.
Proof. apply nth_error_nth. Qed.
Lemma no_anchor_mode ops w : Forall dense_op ops -> grun world_new ops = Some w -> forall l n, nth_error (w_nodes w) l = Some n -> n_mode n = STANDARD.
Proof.
  intros F H. revert F. revert ops w H.
  apply (grun_ind (fun ops w => Forall dense_op ops -> forall l n, nth_error (w_nodes w) l = Some n -> n_mode n = STANDARD)).
  - intros _ [|l] n H; discriminate.
  - intros ops w o w' E IH H F l n Hn. apply Forall_app in F. destruct F as [F Fo]. inversion Fo as [|? ? D _]; subst.
    assert (N : no_mode_change o) by (destruct o; cbn in *; auto).
    destruct (nth_error (w_nodes w) l) as [n0|] eqn:E0.
    + destruct (gstep_mode w o w' N H l n0 E0) as (n' & E' & M). rewrite Hn in E'. injection E' as <-. rewrite M. eapply IH; eauto.
    + destruct o; cbn in D; try contradiction; gstep_inv H; cbn in *; rewrite ?Wn, ?link_all_nth, ?upd_nth, ?E0 in Hn; try discriminate.
      * subst m. rewrite nth_error_app2 in Hn by (apply nth_error_None; auto).
        destruct (l - length (w_nodes w))%nat as [|[|]]; cbn in Hn; try discriminate. injection Hn as <-. reflexivity.
      all: destruct (Nat.eqb _ _); discriminate.
Qed.

Lemma cnt_nodup (s : list loc) : (forall x, (count_occ Nat.eq_dec s x <= 1)%nat) -> NoDup s.
Proof. intros H. apply (NoDup_count_occ Nat.eq_dec). auto. Qed.
Lemma dense_reach ops w : grun world_new ops = Some w -> Forall dense_op ops -> NoDup (added_nodes ops) -> NoDup (added_factors ops) ->
  (forall f, In f (g_factors (w_graph w)) -> NoDup (f_nodes (fa w f)) /\ incl (f_nodes (fa w f)) (added_nodes ops) /\
     f_alldim (fa w f) = lsumn (map (ndim w) (f_nodes (fa w f)))) -> dwf w.
Proof.
  intros H F N1 N2 HF. destruct (containers ops w H) as (C1 & C2 & C3). destruct (active_in ops w H) as [AI NV].
  pose proof (factor_locs ops w H) as FL.
  assert (NM : Forall no_mode_change ops) by (eapply Forall_impl; [|exact F]; intros []; cbn; auto).
  assert (NR : Forall no_rm ops) by (eapply Forall_impl; [|exact F]; intros []; cbn; auto).
  assert (NE : added_eigen ops = []).
  { clear - F. induction F as [|o ops D _ IH]; auto. destruct o; cbn in *; auto. contradiction. }
  assert (AC : g_active (w_graph w) = g_nodes (w_graph w)).
  { rewrite (active_std ops w NM H). apply filter_all. intros l I. specialize (NV l I). unfold std_at.
    destruct (nth_error (w_nodes w) l) as [n|] eqn:E; [|apply nth_error_None in E; lia]. rewrite (no_anchor_mode ops w F H l n E). reflexivity. }
  assert (AD : forall l f, In l (g_nodes (w_graph w)) ->
     count_occ Nat.eq_dec (n_factors (nd w l)) f = (count_occ Nat.eq_dec (g_factors (w_graph w)) f * count_occ Nat.eq_dec (f_nodes (fa w f)) l)%nat).
  { intros l f I. pose proof (adjacency ops w H l f) as A. rewrite no_rm_removed, NE in A by auto. rewrite C2.
    unfold listed_at, neigh_at in A. specialize (NV l I). destruct (nth_error (w_nodes w) l) as [n|] eqn:E; [|apply nth_error_None in E; lia].
    rewrite (nd_nth w l n E). cbn [count_occ] in A. rewrite !Nat.add_0_r in A. rewrite A.
    destruct (nth_error (w_factors w) f) as [x|] eqn:Ef; [rewrite (fa_nth w f x Ef); auto|].
    replace (count_occ Nat.eq_dec (added_factors ops) f) with 0%nat; [reflexivity|]. symmetry. apply count_occ_not_In. rewrite <- C2. intros J.
    apply nth_error_None in Ef. specialize (FL f (or_introl J)). lia. }
  constructor; auto.
  - rewrite C1. apply NoDup_nth_error. intros i j Li E. rewrite map_length in Li.
    destruct (nth_error (added_nodes ops) i) as [a|] eqn:Ea; [|apply nth_error_None in Ea; lia].
    rewrite !nth_error_map, Ea in E. cbn in E. destruct (nth_error (added_nodes ops) j) as [b|] eqn:Eb; [|discriminate]. cbn in E. injection E as E.
    assert (Q : forall k c, nth_error (added_nodes ops) k = Some c -> k = n_id (nd w c)).
    { intros k c Ek. assert (Ic : In c (g_nodes (w_graph w))) by (rewrite C1; eapply nth_error_In; eauto).
      specialize (NV c Ic). destruct (nth_error (w_nodes w) c) as [n|] eqn:En; [|apply nth_error_None in En; lia].
      rewrite (nd_nth w c n En). pose proof (node_ids ops w H c n En Ic) as LA. rewrite C1 in LA. exact (last_at_nodup _ _ _ _ N1 LA Ek). }
    rewrite (Q i a Ea), (Q j b Eb). exact E.
  - destruct (dims ops w H) as [D _]. unfold get_dimension_state in D. rewrite D, AC. f_equal. apply map_ext_in. intros l I. specialize (NV l I).
    unfold dim_at, ndim. destruct (nth_error (w_nodes w) l) as [n|] eqn:E; [|apply nth_error_None in E; lia]. rewrite (nd_nth w l n E). reflexivity.
  - rewrite C2. auto.
  - intros f l I J. rewrite C1. apply (HF f I). auto.
  - intros f I. apply (HF f I).
  - intros f I. apply (HF f I).
  - intros l I. apply cnt_nodup. intros f. rewrite AD by auto. rewrite C2.
    pose proof (proj1 (NoDup_count_occ Nat.eq_dec _) N2 f) as X. destruct (in_dec Nat.eq_dec f (added_factors ops)) as [J|J].
    + rewrite <- C2 in J. pose proof (proj1 (NoDup_count_occ Nat.eq_dec _) (proj1 (HF f J)) l) as Y. nia.
    + apply (count_occ_not_In Nat.eq_dec) in J. rewrite J. lia.
  - intros l f I. rewrite !(count_occ_In Nat.eq_dec). rewrite AD by auto. nia.
Qed.
Lemma dense_solve_oob inv m mx la (o : opt world) : (g_stateDim (w_graph (o_x o)) < lsumn (map (ndim (o_x o)) (g_nodes (w_graph (o_x o)))))%nat ->
  opt_solve dense inv m mx la o = None.
Proof.
  intros L.
  assert (CK : forall w, skel w (fst (chi2 true w))).
  { intros w. unfold chi2. enough (Q : forall ls w t, skel w (fst (fold_left (chi2_step true) ls (w, t)))) by apply Q.
    induction ls as [|a ls IH]; intros v t; [apply skel_refl|]. cbn [fold_left]. eapply skel_trans; [|apply IH].
    apply (skel_of_factors _ _ (fun j => andb (j =? a) (j <? length (w_factors v)))%nat (fun _ f => chi2G v f)); auto.
    - cbn. apply upd_length.
    - intros l. apply nth_upd.
    - intros l f. destruct f; cbn; repeat split. }
  assert (Q : forall o1 : opt world, o_x o1 = o_x o -> opt_nr dense inv o1 = None /\ opt_lm dense inv o1 = None).
  { intros o1 E. unfold opt_nr, opt_lm. cbn [calculate_error dense]. unfold dense_error. rewrite E. pose proof (CK (o_x o)) as K.
    destruct (chi2 true (o_x o)) as [w e]. cbn [fst] in K. cbn [nr_loop lm_steps].
    rewrite dense_oob by (cbn [with_x o_x]; rewrite (sk_graph _ _ K), (skel_ndim _ _ K); auto). split; auto.
    unfold lm_pass. rewrite dense_oob; auto. cbn [with_x o_x bookkeep_state dense]. destruct (dense_bookkeep_spec w) as (K2 & _).
    rewrite (sk_graph _ _ K2), (skel_ndim _ _ K2), (sk_graph _ _ K), (skel_ndim _ _ K); auto. }
  unfold opt_solve. destruct m; apply Q; reflexivity.
Qed.
Lemma dim_pos ops w : grun world_new ops = Some w -> forall l n, nth_error (w_nodes w) l = Some n -> (0 < n_dim n)%nat.
Proof.
  revert ops w. apply (grun_ind (fun ops w => forall l n, nth_error (w_nodes w) l = Some n -> (0 < n_dim n)%nat)).
  - intros [|l] n H; discriminate.
  - intros ops w o w' E IH H l n Hn. destruct (nth_error (w_nodes w) l) as [n0|] eqn:E0.
    + destruct (proj1 (gstep_shape w o w' H) l n0 E0) as (n' & E' & M). rewrite Hn in E'. injection E' as <-. rewrite M. eauto.
    + destruct o; gstep_inv H; cbn in *; rewrite ?Wn, ?link_all_nth, ?upd_nth, ?E0 in Hn; try discriminate; try (destruct (Nat.eqb _ _); discriminate).
      rewrite nth_error_app2 in Hn by (apply nth_error_None; auto).
      destruct (l - length (w_nodes w))%nat as [|[|]]; cbn in Hn; try discriminate. injection Hn as <-. destruct v; cbn; lia.
Qed.
Lemma sum_filter_lt (d : loc -> nat) p s l : (forall x, In x s -> 0 < d x)%nat -> In l s -> p l = false -> (lsumn (map d (filter p s)) < lsumn (map d s))%nat.
Proof.
  induction s as [|a s IH]; intros P I E; [destruct I|]. assert (LE : forall s, (lsumn (map d (filter p s)) <= lsumn (map d s))%nat).
  { clear. induction s as [|a s IH]; cbn; auto. destruct (p a); cbn; lia. }
  specialize (LE s). destruct I as [->|I]; cbn.
  - rewrite E. specialize (P l (or_introl eq_refl)). lia.
  - specialize (IH (fun x Hx => P x (or_intror Hx)) I E). destruct (p a); cbn; lia.
Qed.
Lemma anchor_oob ops w l : grun world_new ops = Some w -> Forall no_mode_change ops -> In l (added_nodes ops) -> n_mode (nd w l) <> STANDARD ->
  (g_stateDim (w_graph w) < lsumn (map (ndim w) (g_nodes (w_graph w))))%nat.
Proof.
  intros H NM I M. destruct (containers ops w H) as (C1 & _). destruct (active_in ops w H) as [_ NV].
  destruct (dims ops w H) as [D _]. unfold get_dimension_state in D. rewrite D, (active_std ops w NM H).
  assert (E : forall s, incl s (g_nodes (w_graph w)) -> map (dim_at w) s = map (ndim w) s).
  { intros s Is. apply map_ext_in. intros k Ik. apply Is in Ik. apply NV in Ik. unfold dim_at, ndim.
    destruct (nth_error (w_nodes w) k) as [n|] eqn:En; [|apply nth_error_None in En; lia]. rewrite (nd_nth w k n En). reflexivity. }
  rewrite E by (intros k Ik; apply filter_In in Ik; tauto). rewrite <- C1 in I. apply (sum_filter_lt _ _ _ l); auto.
  - intros k Ik. apply NV in Ik. destruct (nth_error (w_nodes w) k) as [n|] eqn:En; [|apply nth_error_None in En; lia].
    unfold ndim. rewrite (nd_nth w k n En). eapply dim_pos; eauto.
  - apply NV in I. unfold std_at. destruct (nth_error (w_nodes w) l) as [n|] eqn:En; [|apply nth_error_None in En; lia].
    rewrite (nd_nth w l n En) in M. destruct (n_mode n); congruence.
Qed.
