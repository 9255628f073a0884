(** Quadratic forms of the sparse normal equations. *)
Require Import Reals List Arith Lia Lra Bool.
From Verif Require Import Nodes Robust Graph GraphProofs Sums Solve SpecSolve SolveIndex.
Import ListNotations.
Local Open Scope R_scope.

Lemma sumn2_swap_in n m p (f : nat -> nat -> nat -> R) :
  sumn n (fun i => sumn m (fun j => sumn p (fun k => f i j k))) = sumn m (fun j => sumn p (fun k => sumn n (fun i => f i j k))).
Proof. rewrite sumn_swap. apply sumn_ext. intros j _. apply sumn_swap. Qed.

(** x' (A' W A) y = (A x)' W (A y) *)
Lemma bilinear_form M N (A W : nat -> nat -> R) x y :
  sumn N (fun i => sumn N (fun j => x i * sumn M (fun p => sumn M (fun q => A p i * W p q * A q j)) * y j)) =
  sumn M (fun p => sumn M (fun q => sumn N (fun i => A p i * x i) * W p q * sumn N (fun j => A q j * y j))).
Proof.
  transitivity (sumn N (fun i => sumn M (fun p => sumn M (fun q => sumn N (fun j => x i * (A p i * W p q * A q j) * y j))))).
  - apply sumn_ext; intros i _. rewrite <- sumn2_swap_in. apply sumn_ext; intros j _.
    rewrite sumn_mult_l, sumn_mult_r. apply sumn_ext; intros p _. rewrite sumn_mult_l, sumn_mult_r. reflexivity.
  - rewrite sumn2_swap_in. apply sumn_ext; intros p _. apply sumn_ext; intros q _.
    rewrite <- sumn_scal_r. rewrite sumn_mult_r. apply sumn_ext; intros i _. rewrite sumn_mult_l. apply sumn_ext; intros j _. ring.
Qed.
Lemma linear_form M N (A W : nat -> nat -> R) r x :
  sumn N (fun i => sumn M (fun p => sumn M (fun q => A p i * W p q * r q)) * x i) =
  sumn M (fun p => sumn M (fun q => sumn N (fun i => A p i * x i) * W p q * r q)).
Proof.
  transitivity (sumn N (fun i => sumn M (fun p => sumn M (fun q => A p i * x i * (W p q * r q))))).
  - apply sumn_ext; intros i _. rewrite sumn_mult_r. apply sumn_ext; intros p _. rewrite sumn_mult_r. apply sumn_ext; intros q _. ring.
  - rewrite sumn2_swap_in. apply sumn_ext; intros p _. apply sumn_ext; intros q _. rewrite sumn_scal_r. ring.
Qed.

Notation erow e := (fst (fst e)).
Notation ecol e := (snd (fst e)).
Lemma sp_get_lsum A p q : NoDup (map fst A) -> sp_get A p q = lsum A (fun e => if same_pos p q e then snd e else 0).
Proof.
  unfold sp_get. induction A as [|e A IH]; intros N; cbn; auto. inversion N; subst. rewrite lsum_cons.
  destruct (same_pos p q e) eqn:E.
  - rewrite lsum_zero; [ring|]. intros a Ha. destruct (same_pos p q a) eqn:Ea; auto. exfalso. apply H1.
    apply same_pos_true in E. apply same_pos_true in Ea. rewrite E, <- Ea. apply in_map; auto.
  - rewrite IH by auto. ring.
Qed.
Definition row_sum (A : list (nat * nat * R)) (p : nat) (x : nat -> R) : R :=
  lsum A (fun e => if Nat.eqb (erow e) p then snd e * x (ecol e) else 0).
Lemma sp_get_row A p N x : NoDup (map fst A) -> (forall e, In e A -> (ecol e < N)%nat) ->
  sumn N (fun q => sp_get A p q * x q) = row_sum A p x.
Proof.
  intros ND B. unfold row_sum.
  transitivity (sumn N (fun q => lsum A (fun e => if same_pos p q e then snd e * x q else 0))).
  - apply sumn_ext; intros q _. rewrite sp_get_lsum by auto. rewrite Rmult_comm, <- lsum_scal. apply lsum_ext. intros e _.
    destruct (same_pos p q e); ring.
  - rewrite sumn_lsum. apply lsum_ext. intros e He. unfold same_pos.
    rewrite (sumn_single N (ecol e)).
    + rewrite Nat.eqb_refl, andb_true_r. reflexivity.
    + auto.
    + intros i _ Hi. destruct (Nat.eqb_spec (ecol e) i); [congruence|]. rewrite andb_false_r. reflexivity.
Qed.
(** a symmetric matrix given by its upper triangle *)
Lemma upper_form A M u v : NoDup (map fst A) -> (forall e, In e A -> (erow e < M)%nat /\ (ecol e < M)%nat /\ (erow e <= ecol e)%nat) ->
  sumn M (fun p => sumn M (fun q => u p * upper_sym (sp_get A) p q * v q)) =
  lsum A (fun e => snd e * (u (erow e) * v (ecol e) + if Nat.eqb (erow e) (ecol e) then 0 else u (ecol e) * v (erow e))).
Proof.
  intros ND B.
  assert (E : forall p q, upper_sym (sp_get A) p q =
    lsum A (fun e => (if same_pos p q e then snd e else 0) + (if andb (same_pos q p e) (negb (Nat.eqb (erow e) (ecol e))) then snd e else 0))).
  { intros p q. unfold upper_sym. destruct (Nat.leb_spec p q) as [L|L]; rewrite sp_get_lsum by auto; apply lsum_ext; intros e He;
    destruct (B e He) as (_ & _ & B3); unfold same_pos.
    - destruct (Nat.eqb_spec (erow e) q), (Nat.eqb_spec (ecol e) p), (Nat.eqb_spec (erow e) (ecol e)); cbn; try ring; try lia.
    - destruct (Nat.eqb_spec (erow e) p), (Nat.eqb_spec (ecol e) q); cbn; try lia; try ring;
      destruct (Nat.eqb_spec (erow e) q), (Nat.eqb_spec (ecol e) p), (Nat.eqb_spec (erow e) (ecol e)); cbn; try ring; try lia. }
  transitivity (sumn M (fun p => lsum A (fun e => sumn M (fun q => u p * ((if same_pos p q e then snd e else 0) +
      (if andb (same_pos q p e) (negb (Nat.eqb (erow e) (ecol e))) then snd e else 0)) * v q)))).
  - apply sumn_ext; intros p _. rewrite <- sumn_lsum. apply sumn_ext; intros q _. rewrite E.
    rewrite <- lsum_scal, Rmult_comm, <- lsum_scal. apply lsum_ext; intros e _. ring.
  - rewrite sumn_lsum. apply lsum_ext; intros e He. destruct (B e He) as (B1 & B2 & B3).
    transitivity (sumn M (fun p => sumn M (fun q => u p * (if same_pos p q e then snd e else 0) * v q)) +
                  sumn M (fun p => sumn M (fun q => u p * (if andb (same_pos q p e) (negb (Nat.eqb (erow e) (ecol e))) then snd e else 0) * v q))).
    { rewrite <- sumn_plus. apply sumn_ext; intros p _. rewrite <- sumn_plus. apply sumn_ext; intros q _. ring. }
    rewrite (sumn_single M (erow e)); auto.
    2:{ intros i _ Hi. apply sumn_zero. intros j _. unfold same_pos. destruct (Nat.eqb_spec (erow e) i); [congruence|]. cbn; ring. }
    rewrite (sumn_single M (ecol e)); auto.
    2:{ intros i _ Hi. unfold same_pos. destruct (Nat.eqb_spec (ecol e) i); [congruence|]. rewrite andb_false_r. ring. }
    rewrite (sumn_single M (ecol e)); auto.
    2:{ intros i _ Hi. apply sumn_zero. intros j _. unfold same_pos. destruct (Nat.eqb_spec (ecol e) i); [congruence|]. rewrite andb_false_r. cbn; ring. }
    rewrite (sumn_single M (erow e)); auto.
    2:{ intros i _ Hi. unfold same_pos. destruct (Nat.eqb_spec (erow e) i); [congruence|]. cbn; ring. }
    unfold same_pos. rewrite !Nat.eqb_refl. cbn [andb]. destruct (Nat.eqb (erow e) (ecol e)); cbn [negb]; ring.
Qed.
(** the triangular enumeration of one information matrix *)
Lemma upper_quad d (W : nat -> nat -> R) a b :
  sumn d (fun l => lsum (seq l (d - l)) (fun k => W l k * (a l * b k + if Nat.eqb l k then 0 else a k * b l))) = quad d (upper_sym W) a b.
Proof.
  induction d; [reflexivity|]. unfold quad in *. cbn [sumn].
  replace (S d - d)%nat with 1%nat by lia. cbn [seq]. rewrite lsum_cons, lsum_nil, Nat.eqb_refl.
  rewrite sumn_plus.
  transitivity (sumn d (fun l => lsum (seq l (d - l)) (fun k => W l k * (a l * b k + (if (l =? k)%nat then 0 else a k * b l)))) +
     sumn d (fun l => W l d * (a l * b d + a d * b l)) + (W d d * (a d * b d + 0) + 0)).
  - f_equal. rewrite <- sumn_plus. apply sumn_ext; intros l Hl. replace (S d - l)%nat with (S (d - l)) by lia.
    rewrite seq_S, lsum_app, lsum_cons, lsum_nil. replace (l + (d - l))%nat with d by lia.
    destruct (Nat.eqb_spec l d); [lia|]. ring.
  - rewrite IHd. assert (Ed : upper_sym W d d = W d d) by (unfold upper_sym; rewrite Nat.leb_refl; reflexivity). rewrite Ed.
    assert (E1 : sumn d (fun l => W l d * (a l * b d + a d * b l)) =
       sumn d (fun i => a i * upper_sym W i d * b d) + sumn d (fun k => a d * upper_sym W d k * b k)).
    { rewrite <- sumn_plus. apply sumn_ext; intros l Hl. unfold upper_sym. destruct (Nat.leb_spec l d); [|lia]. destruct (Nat.leb_spec d l); [lia|]. ring. }
    rewrite E1. ring.
Qed.
Lemma quad_sym d W a b : sym_on d W -> quad d (upper_sym W) a b = quad d W a b.
Proof.
  intros S. unfold quad. apply sumn_ext; intros l Hl. apply sumn_ext; intros k Hk. unfold upper_sym.
  destruct (Nat.leb_spec l k); auto. rewrite (S k l); auto.
Qed.
Lemma quad_ext d W a b a' b' : (forall i, (i < d)%nat -> a i = a' i) -> (forall i, (i < d)%nat -> b i = b' i) -> quad d W a b = quad d W a' b'.
Proof. intros Ha Hb. unfold quad. apply sumn_ext; intros l Hl. apply sumn_ext; intros k Hk. rewrite Ha, Hb; auto. Qed.
Lemma quad_plus_l d W a a' b : quad d W (fun i => a i + a' i) b = quad d W a b + quad d W a' b.
Proof. unfold quad. rewrite <- sumn_plus. apply sumn_ext; intros l _. rewrite <- sumn_plus. apply sumn_ext; intros; ring. Qed.
Lemma quad_plus_r d W a b b' : quad d W a (fun i => b i + b' i) = quad d W a b + quad d W a b'.
Proof. unfold quad. rewrite <- sumn_plus. apply sumn_ext; intros l _. rewrite <- sumn_plus. apply sumn_ext; intros; ring. Qed.
Lemma quad_comm d W a b : sym_on d W -> quad d W a b = quad d W b a.
Proof.
  intros S. unfold quad. rewrite sumn_swap. apply sumn_ext; intros l Hl. apply sumn_ext; intros k Hk. rewrite (S k l) by auto. ring.
Qed.

(** ** rows of the assembled matrix *)
Lemma row_sum_app A B p x : row_sum (A ++ B) p x = row_sum A p x + row_sum B p x.
Proof. apply lsum_app. Qed.
Lemma row_sum_other A p x : (forall e, In e A -> erow e <> p) -> row_sum A p x = 0.
Proof. intros H. apply lsum_zero. intros e He. destruct (Nat.eqb_spec (erow e) p); auto. exfalso. apply (H e He); auto. Qed.
Lemma row_sum_all A p x : (forall e, In e A -> erow e = p) -> row_sum A p x = lsum A (fun e => snd e * x (ecol e)).
Proof. intros H. apply lsum_ext. intros e He. rewrite (H e He), Nat.eqb_refl. reflexivity. Qed.
Lemma row_sum_factor w m p l x : (l < fdim w (snd p))%nat ->
  row_sum (factor_inserts w m p) (fst p + l) x =
  lsum (row_inserts w m (f_J (fa w (snd p))) (fst p) l 0 (f_nodes (fa w (snd p)))) (fun e => snd e * x (ecol e)).
Proof.
  intros L. unfold factor_inserts, row_sum. rewrite lsum_flat_map, lsum_seq.
  rewrite (sumn_single _ l); auto.
  - apply row_sum_all. intros e He. apply row_inserts_in in He. destruct He as (j & n & k & _ & _ & _ & ->). reflexivity.
  - intros i _ Hi. apply row_sum_other. intros e He. apply row_inserts_in in He. destruct He as (j & n & k & _ & _ & _ & ->). cbn. lia.
Qed.
Lemma row_sum_factors w m fs x : forall off i lf l, nth_error fs i = Some lf -> (l < fdim w lf)%nat ->
  row_sum (flat_map (factor_inserts w m) (index_factors w off fs)) (off + before (fdim w) fs i + l) x =
  lsum (row_inserts w m (f_J (fa w lf)) (off + before (fdim w) fs i) l 0 (f_nodes (fa w lf))) (fun e => snd e * x (ecol e)).
Proof.
  induction fs as [|a fs IH]; intros off i lf l Hi Hl; [destruct i; discriminate|].
  cbn [index_factors flat_map]. rewrite row_sum_app. destruct i as [|i].
  - cbn in Hi. injection Hi as ->. unfold before; cbn [firstn map lsumn]. rewrite Nat.add_0_r.
    pose proof (row_sum_factor w m (off, lf) l x Hl) as E; cbn [fst snd] in E; rewrite E; clear E.
    rewrite (row_sum_other (flat_map _ _)); [ring|]. intros e He. apply in_flat_map in He. destruct He as (p & Hp & He).
    apply index_factors_in in Hp. destruct Hp as (j & _ & F). apply factor_inserts_in in He. destruct He as (l' & j' & n & k & _ & _ & _ & _ & ->).
    cbn. unfold fdim in Hl. lia.
  - cbn in Hi. assert (B : before (fdim w) (a :: fs) (S i) = (f_dim (fa w a) + before (fdim w) fs i)%nat) by reflexivity.
    rewrite B, Nat.add_assoc. rewrite (IH (off + f_dim (fa w a))%nat i lf l Hi Hl).
    rewrite row_sum_other; [ring|]. intros e He. apply factor_inserts_in in He. destruct He as (l' & j' & n & k & L & _ & _ & _ & ->).
    cbn in *. unfold fdim in L. lia.
Qed.
Lemma row_inserts_sum w m J off l ns x : good_map w m -> NoDup (g_active (w_graph w)) ->
  (forall n, In n ns -> is_anchor (nd w n) = false -> In n (g_active (w_graph w))) ->
  forall tk, lsum (row_inserts w m J off l tk ns) (fun e => snd e * x (ecol e)) = jac_dir (ndim w) J l tk ns (increments w x).
Proof.
  intros G ND. induction ns as [|n ns IH]; intros HA tk; [reflexivity|]. cbn [row_inserts jac_dir].
  assert (HA' : forall n', In n' ns -> is_anchor (nd w n') = false -> In n' (g_active (w_graph w))) by (intros; apply HA; cbn; auto).
  destruct (is_anchor (nd w n)) eqn:An.
  - rewrite IH by auto. rewrite sumn_zero. unfold ndim; ring. intros k _. unfold increments. rewrite An. ring.
  - rewrite lsum_app, IH by auto. unfold ndim at 2. f_equal. rewrite lsum_map, lsum_seq. apply sumn_ext. intros k _. cbn [fst snd].
    assert (I : In n (g_active (w_graph w))) by (apply HA; cbn; auto).
    unfold increments. rewrite An. rewrite (G _ _ (index_of_nth _ _ I)). rewrite (Nat.add_comm k). reflexivity.
Qed.
