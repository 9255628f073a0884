(** Proofs about Plane: accounting of the points, the matrices, the estimate. *)
Require Import Reals List Arith Lia Lra Psatz Bool.
From Verif Require Import Lin LinFacts SO3 SE3 SpecGeom SE3Alg Sums Registration SpecRegistration Planes SpecPlanes.
Import ListNotations.
Local Open Scope R_scope.

(** ** Lists *)
Lemma set_at_length {A} i (x : A) l : length (set_at i x l) = length l.
Proof. revert i. induction l; intros [|i]; cbn; auto. Qed.
Lemma set_at_same {A} i (x : A) l : (i < length l)%nat -> nth_error (set_at i x l) i = Some x.
Proof. revert i. induction l; intros [|i] H; cbn in *; auto; try lia. apply IHl. lia. Qed.
Lemma set_at_other {A} i j (x : A) l : i <> j -> nth_error (set_at i x l) j = nth_error l j.
Proof. revert i j. induction l; intros [|i] [|j] H; cbn in *; auto; try lia. Qed.
Lemma set_at_oob {A} i (x : A) l : (length l <= i)%nat -> set_at i x l = l.
Proof. revert i. induction l; intros [|i] H; cbn in *; auto; try lia. rewrite IHl; auto. lia. Qed.
Lemma nth_error_ext {A} (l1 l2 : list A) : (forall i, nth_error l1 i = nth_error l2 i) -> l1 = l2.
Proof.
  revert l2. induction l1 as [|a l1 IH]; intros [|b l2] H; auto.
  - specialize (H 0%nat). discriminate.
  - specialize (H 0%nat). discriminate.
  - pose proof (H 0%nat) as H0. cbn in H0. injection H0 as ->. f_equal. apply IH. intros i. apply (H (S i)).
Qed.
Lemma all_some_length {A} (l : list (option A)) r : all_some l = Some r -> length r = length l.
Proof.
  revert r. induction l as [|[a|] l IH]; intros r H; cbn in H; [injection H as <-; auto | | discriminate].
  destruct (all_some l) as [r'|]; [|discriminate]. injection H as <-. cbn. rewrite (IH r'); auto.
Qed.
Lemma all_some_map {A} (l : list A) : all_some (map Some l) = Some l.
Proof. induction l; cbn; [reflexivity | rewrite IHl; reflexivity]. Qed.
Lemma all_some_inv {A} (l : list (option A)) r : all_some l = Some r -> l = map Some r.
Proof.
  revert r. induction l as [|[a|] l IH]; intros r H; cbn in H; [injection H as <-; auto | | discriminate].
  destruct (all_some l) as [r'|]; [|discriminate]. injection H as <-. cbn. f_equal. auto.
Qed.
Lemma all_some_seq {A} (f : nat -> option A) n l : all_some (map f (seq 0 n)) = Some l <-> length l = n /\ forall t, (t < n)%nat -> f t = nth_error l t.
Proof.
  split.
  - intros H. pose proof (all_some_length _ _ H) as L. rewrite map_length, seq_length in L. split; auto. apply all_some_inv in H.
    intros t Ht. assert (E : nth_error (map f (seq 0 n)) t = Some (f t)).
    { apply map_nth_error. rewrite (nth_error_nth' _ 0%nat) by (rewrite seq_length; auto). rewrite seq_nth; auto. }
    rewrite H in E. destruct (nth_error l t) as [a|] eqn:E2.
    + rewrite (map_nth_error Some _ _ E2) in E. injection E as <-. auto.
    + apply nth_error_None in E2. lia.
  - intros [L H]. rewrite <- all_some_map. f_equal. apply nth_error_ext. intros i. destruct (Nat.lt_ge_cases i n) as [Hi | Hi].
    + destruct (nth_error l i) as [a|] eqn:E; [|apply nth_error_None in E; lia]. rewrite (map_nth_error Some _ _ E).
      erewrite map_nth_error; [|rewrite (nth_error_nth' _ 0%nat) by (rewrite seq_length; auto); rewrite seq_nth; auto].
      cbn. rewrite H, E; auto.
    + rewrite (proj2 (nth_error_None _ _)), (proj2 (nth_error_None _ _)); rewrite ?map_length, ?seq_length; auto; lia.
Qed.
Lemma all_some_seq_map {A B} (g : A -> B) l n : length l = n ->
  all_some (map (fun t => option_map g (nth_error l t)) (seq 0 n)) = Some (map g l).
Proof.
  intros L. apply all_some_seq. split; [rewrite map_length; auto|]. intros t Ht.
  destruct (nth_error l t) eqn:E; [|apply nth_error_None in E; lia]. cbn. rewrite (map_nth_error g _ _ E). auto.
Qed.

(** ** 4x4 matrices *)
Definition msum (l : list M4) : M4 := fold_right m4add m4zero l.
Lemma m4add_comm A B : m4add A B = m4add B A. Proof. lin. Qed.
Lemma m4add_assoc A B C : m4add (m4add A B) C = m4add A (m4add B C). Proof. lin. Qed.
Lemma m4add_0_l A : m4add m4zero A = A. Proof. lin. Qed.
Lemma m4add_0_r A : m4add A m4zero = A. Proof. lin. Qed.
Lemma fold_left_msum l A : fold_left m4add l A = m4add A (msum l).
Proof. revert A. induction l as [|B l IH]; intros A; cbn; [rewrite m4add_0_r; auto|]. rewrite IH, m4add_assoc. reflexivity. Qed.
Lemma acc_msum l : fold_left m4add l m4zero = msum l.
Proof. rewrite fold_left_msum. apply m4add_0_l. Qed.
Lemma fold_left_map {A B C} (f : C -> B -> C) (g : A -> B) l c : fold_left (fun c a => f c (g a)) l c = fold_left f (map g l) c.
Proof. revert c. induction l; intros c; cbn; auto. Qed.
Lemma matrix_S_msum l : matrix_S l = msum (map (fun p => outer4 (hom p) (hom p)) l).
Proof. unfold matrix_S. rewrite (fold_left_map m4add (fun p => outer4 (hom p) (hom p))). apply acc_msum. Qed.
Lemma conj4_add T A B : conj4 T (m4add A B) = m4add (conj4 T A) (conj4 T B). Proof. unfold conj4. lin. Qed.
Lemma conj4_zero T : conj4 T m4zero = m4zero. Proof. unfold conj4. lin. Qed.
Lemma conj4_msum T l : conj4 T (msum l) = msum (map (conj4 T) l).
Proof. induction l as [|A l IH]; cbn; [apply conj4_zero|]. rewrite conj4_add. fold (msum l). rewrite IH. reflexivity. Qed.
Lemma conj4_outer T u v : conj4 T (outer4 u v) = outer4 (m4app T u) (m4app T v).
Proof. unfold conj4, outer4. lin. Qed.
Lemma hom_move T x : hom4 T -> m4app T (hom x) = hom (move T x).
Proof. intros [A B]. destruct T as [Rm t b c]. cbn in *. subst. unfold hom, move. cbn [mR mt]. lin. Qed.
Lemma conj4_S T l : hom4 T -> conj4 T (matrix_S l) = msum (map (fun x => outer4 (hom (move T x)) (hom (move T x))) l).
Proof.
  intros H. rewrite matrix_S_msum, conj4_msum, map_map. f_equal. apply map_ext. intros x. rewrite conj4_outer, hom_move; auto.
Qed.
Lemma scatter_def tr pts : Forall hom4 tr -> msum (map (fun q => conj4 (fst q) (matrix_S (snd q))) (combine tr pts)) = scatter tr pts.
Proof.
  intros F. unfold scatter. fold (msum (map (fun q => fold_right m4add m4zero (map (fun x => outer4 (hom (move (fst q) x)) (hom (move (fst q) x))) (snd q))) (combine tr pts))).
  f_equal. apply map_ext_in. intros [T l] Hq. cbn [fst snd]. apply in_combine_l in Hq. rewrite Forall_forall in F. rewrite conj4_S; auto.
Qed.
Lemma quad4_add A B v : quad4 (m4add A B) v = quad4 A v + quad4 B v. Proof. unfold quad4. lin. Qed.
Lemma quad4_zero v : quad4 m4zero v = 0. Proof. unfold quad4. lin. Qed.
Lemma quad4_msum l v : quad4 (msum l) v = lsum l (fun A => quad4 A v).
Proof. induction l as [|A l IH]; [apply quad4_zero|]. cbn [msum fold_right]. rewrite quad4_add, lsum_cons. fold (msum l). rewrite IH. reflexivity. Qed.
Lemma quad4_outer v x : quad4 (outer4 (hom x) (hom x)) v = plane_at v x * plane_at v x.
Proof. unfold quad4, outer4, hom, plane_at. lin. Qed.
Lemma quad4_scatter tr pts v : quad4 (scatter tr pts) v = cloud_error v tr pts.
Proof.
  unfold scatter, cloud_error. fold (msum (map (fun q => fold_right m4add m4zero (map (fun x => outer4 (hom (move (fst q) x)) (hom (move (fst q) x))) (snd q))) (combine tr pts))).
  rewrite quad4_msum, lsum_map. apply lsum_ext. intros q _. fold (msum (map (fun x => outer4 (hom (move (fst q) x)) (hom (move (fst q) x))) (snd q))).
  rewrite quad4_msum, lsum_map. apply lsum_ext. intros x _. apply quad4_outer.
Qed.
Lemma sym_msum l : Forall (fun A => m4tr A = A) l -> m4tr (msum l) = msum l.
Proof.
  induction 1 as [|A l H F IH]; cbn; [lin|]. fold (msum l). transitivity (m4add (m4tr A) (m4tr (msum l))); [generalize (msum l); lin|]. rewrite H, IH. reflexivity.
Qed.
Lemma outer_sym u : m4tr (outer4 u u) = outer4 u u. Proof. unfold outer4. lin. Qed.
Lemma scatter_sym tr pts : m4tr (scatter tr pts) = scatter tr pts.
Proof.
  apply sym_msum. apply Forall_forall. intros A HA. apply in_map_iff in HA. destruct HA as (q & <- & _).
  apply sym_msum. apply Forall_forall. intros A HA. apply in_map_iff in HA. destruct HA as (x & <- & _). apply outer_sym.
Qed.
(** an exact smallest eigenvalue is the least value of the form *)
Lemma eigen_least Q e : eigen4_of Q e -> least (quad4 Q) (e4_val e) /\ quad4 Q (e4_vec e) = e4_val e.
Proof.
  intros (U & E & L). assert (V : quad4 Q (e4_vec e) = e4_val e).
  { unfold quad4. rewrite E. unfold unit4 in U. transitivity (e4_val e * v4dot (e4_vec e) (e4_vec e)); [generalize (e4_vec e), (e4_val e); lin | rewrite U; ring]. }
  split; auto. split; [exists (e4_vec e); auto|]. intros v Hv. specialize (L v). rewrite Hv in L. unfold quad4. lra.
Qed.
Lemma least_unique F l l' : least F l -> least F l' -> l = l'.
Proof. intros [(v & U & E) L] [(v' & U' & E') L']. specialize (L v' U'). specialize (L' v U). lra. Qed.
Lemma cloud_nonneg v tr pts : 0 <= cloud_error v tr pts.
Proof. apply lsum_nonneg. intros q _. apply lsum_nonneg. intros x _. apply Rle_0_sqr. Qed.

(** ** Accounting *)
Record shape (n : nat) (pts : list (list V3)) (p : plane) : Prop := {
  sh_len : pl_len p = n; sh_pts : pl_points p = pts; sh_n : length pts = n; sh_S : pl_S p = [] \/ length (pl_S p) = n }.
Lemma shape_new n : shape n (repeat [] n) (plane_new n).
Proof. constructor; cbn; auto. apply repeat_length. Qed.
Lemma shape_push n pts p x t : shape n pts p -> (t < n)%nat ->
  exists l, nth_error pts t = Some l /\ exists p', push_back_point x t p = Some p' /\ shape n (set_at t (l ++ [x]) pts) p' /\
  pl_number p' = S (pl_number p) /\ pl_S p' = pl_S p /\ pl_Q p' = pl_Q p /\ pl_acc p' = pl_acc p /\ pl_est p' = pl_est p.
Proof.
  intros [A B C D] Ht. destruct (nth_error pts t) as [l|] eqn:E; [|apply nth_error_None in E; lia]. exists l. split; auto.
  unfold push_back_point. rewrite A, B, E. apply Nat.ltb_lt in Ht. rewrite Ht. eexists. split; [reflexivity|]. split; [|auto 6]. constructor; cbn; auto. rewrite set_at_length; auto.
Qed.
Lemma push_out n pts p x t : shape n pts p -> (n <= t)%nat -> push_back_point x t p = Some p.
Proof. intros [A B C D] Ht. unfold push_back_point. rewrite A. replace (t <? n)%nat with false; auto. symmetry. apply Nat.ltb_ge. auto. Qed.
(** the matrices S in use: computed now if there are none *)
Definition S_used (p : plane) : list M4 := match pl_S p with [] => map matrix_S (pl_points p) | l => l end.
Lemma calc_S_false n pts p : shape n pts p -> exists p', calculate_all_matrices_S false p = Some p' /\ shape n pts p' /\ pl_S p' = S_used p /\
  pl_number p' = pl_number p /\ pl_Q p' = pl_Q p /\ pl_est p' = pl_est p /\ pl_acc p' = pl_acc p /\ S_used p' = S_used p /\ pl_gradQ p' = pl_gradQ p.
Proof.
  intros [A B C D]. unfold calculate_all_matrices_S. destruct (pl_S p) as [|S0 Ss] eqn:E.
  - rewrite A, B, all_some_seq_map by auto. eexists. split; [reflexivity|]. cbn. split; [|unfold S_used; cbn; rewrite E, B; repeat split; auto].
    + constructor; cbn; auto. right. rewrite map_length; auto.
    + destruct (map matrix_S pts); auto.
  - exists p. repeat split; auto. rewrite E. auto. unfold S_used. rewrite E. auto.
Qed.
Lemma calc_S_true n pts p : shape n pts p -> exists p', calculate_all_matrices_S true p = Some p' /\ shape n pts p' /\ pl_S p' = map matrix_S pts /\
  pl_number p' = pl_number p /\ pl_Q p' = pl_Q p /\ pl_est p' = pl_est p /\ pl_acc p' = pl_acc p /\ pl_gradQ p' = pl_gradQ p.
Proof.
  intros [A B C D]. unfold calculate_all_matrices_S. rewrite A, B, all_some_seq_map by auto. eexists. split; [reflexivity|]. cbn. repeat split; auto. cbn. right. rewrite map_length; auto.
Qed.
Definition Q_of (tr : list M4) (Ss : list M4) : list M4 := map (fun q => conj4 (fst q) (snd q)) (combine tr Ss).
Lemma nth_error_combine {A B} (l : list A) (m : list B) i : nth_error (combine l m) i =
  match nth_error l i, nth_error m i with Some a, Some b => Some (a, b) | _, _ => None end.
Proof.
  revert m i. induction l as [|a l IH]; intros [|b m] [|i]; cbn; auto.
  - destruct (nth_error l i); auto.
Qed.
Lemma calc_Q n pts p tr : shape n pts p -> length (pl_S p) = n ->
  (n <= length tr)%nat -> exists p', calculate_all_matrices_Q tr p = Some p' /\ shape n pts p' /\ pl_S p' = pl_S p /\ pl_Q p' = Q_of tr (pl_S p) /\
  pl_number p' = pl_number p /\ pl_est p' = pl_est p /\ pl_acc p' = pl_acc p /\ pl_gradQ p' = pl_gradQ p.
Proof.
  intros [A B C D] L Ht. unfold calculate_all_matrices_Q. rewrite A.
  rewrite (proj2 (all_some_seq _ n (Q_of tr (pl_S p)))).
  - eexists. split; [reflexivity|]. cbn. repeat split; auto.
  - unfold Q_of. split; [rewrite map_length, combine_length; lia|]. intros t Htn.
    pose proof (nth_error_combine tr (pl_S p) t) as E. destruct (nth_error tr t) as [T|] eqn:E1; [|apply nth_error_None in E1; lia].
    destruct (nth_error (pl_S p) t) as [St|] eqn:E2; [|apply nth_error_None in E2; lia]. rewrite (map_nth_error _ _ _ E). reflexivity.
Qed.
Lemma calc_Q_short n pts p tr : shape n pts p -> (length tr < n)%nat -> calculate_all_matrices_Q tr p = None.
Proof.
  intros [A B C D] Ht. unfold calculate_all_matrices_Q. rewrite A. destruct (all_some _) as [l|] eqn:E; auto.
  apply all_some_seq in E. destruct E as [L E]. specialize (E (length tr) Ht). rewrite (proj2 (nth_error_None tr _)) in E by auto.
  symmetry in E. apply nth_error_None in E. lia.
Qed.
(** the accumulated matrix of an estimate *)
Definition acc_of (tr : list M4) (p : plane) : M4 := msum (Q_of tr (S_used p)).
Lemma estimate_spec eigs n pts p tr : shape n pts p -> (n <= length tr)%nat ->
  exists p', estimate_plane eigs tr p = Some (e4_val (eigs (acc_of tr p)), p') /\ shape n pts p' /\ pl_S p' = S_used p /\ S_used p' = S_used p /\
  pl_Q p' = Q_of tr (S_used p) /\ pl_number p' = pl_number p /\ pl_est p' = Some (e4_vec (eigs (acc_of tr p))) /\
  pl_acc p' = Some (acc_of tr p) /\ pl_lambda p' = e4_val (eigs (acc_of tr p)) /\ pl_gradQ p' = pl_gradQ p.
Proof.
  intros H Ht. unfold estimate_plane. destruct (calc_S_false n pts p H) as (p1 & E1 & H1 & S1 & N1 & Q1 & V1 & A1 & U1 & G1). rewrite E1.
  assert (L1 : length (pl_S p1) = n).
  { rewrite S1. unfold S_used. destruct H as [A B C [D | D]]; [rewrite D, map_length, B; auto|]. destruct (pl_S p); auto. rewrite map_length, B; auto. }
  destruct (calc_Q n pts p1 tr H1 L1 Ht) as (p2 & E2 & H2 & S2 & Q2 & N2 & V2 & A2 & G2). rewrite E2.
  rewrite acc_msum, Q2, S1. fold (acc_of tr p). eexists. split; [reflexivity|]. cbn. destruct H2. repeat split; cbn; auto; try congruence.
  unfold S_used at 1. cbn. rewrite S2, S1. unfold S_used. destruct (pl_S p) eqn:EP; auto. rewrite sh_pts0, (sh_pts _ _ _ H). destruct (map matrix_S pts); auto.
Qed.
Lemma estimate_short eigs n pts p tr : shape n pts p -> (length tr < n)%nat -> estimate_plane eigs tr p = None.
Proof.
  intros H Ht. unfold estimate_plane. destruct (calc_S_false n pts p H) as (p1 & E1 & H1 & _). rewrite E1, (calc_Q_short n pts p1 tr); auto.
Qed.
Lemma step_shape eigs n pts p o p' : shape n pts p -> o <> Clear -> plane_step eigs o p = Some p' ->
  shape n (match o with Push x t => match nth_error pts t with Some l => set_at t (l ++ [x]) pts | None => pts end | _ => pts end) p' /\
  pl_number p' = (match o with Push _ t => if Nat.ltb t n then 1 else 0 | _ => 0 end + pl_number p)%nat.
Proof.
  intros H NC E. destruct o as [x t | b | tr | tr t | t | |]; cbn in E; [| | | | | congruence|].
  - destruct (Nat.lt_ge_cases t n) as [Ht | Ht].
    + destruct (shape_push n pts p x t H Ht) as (l & E1 & p1 & E2 & H2 & N & _). rewrite E1. rewrite E2 in E. injection E as <-.
      split; auto. apply Nat.ltb_lt in Ht. rewrite Ht. auto.
    + rewrite (push_out n pts p x t H Ht) in E. injection E as <-. rewrite (proj2 (nth_error_None pts t)) by (destruct H; lia).
      split; auto. apply Nat.ltb_ge in Ht. rewrite Ht. auto.
  - destruct b.
    + destruct (calc_S_true n pts p H) as (p1 & E1 & H1 & _ & N & _). rewrite E1 in E. injection E as <-. auto.
    + destruct (calc_S_false n pts p H) as (p1 & E1 & H1 & _ & N & _). rewrite E1 in E. injection E as <-. auto.
  - destruct (Nat.lt_ge_cases (length tr) n) as [Ht | Ht]; [rewrite (estimate_short eigs n pts p tr H Ht) in E; discriminate|].
    destruct (estimate_spec eigs n pts p tr H Ht) as (p1 & E1 & H1 & _ & _ & _ & N & _). rewrite E1 in E. cbn in E. injection E as <-. auto.
  - unfold estimate_plane_incrementally in E. destruct (replaced_Q tr t p); [|discriminate]. injection E as <-. destruct H. split; auto. constructor; cbn; auto.
  - unfold calculate_gradient in E. destruct (nth_error (pl_Q p) t); [|discriminate]. destruct (pl_est p) eqn:EV; [|discriminate]. injection E as <-. destruct H. split; auto. constructor; cbn; auto.
  - injection E as <-. destruct H. split; auto. constructor; cbn; auto.
Qed.
Lemma pushed_app a b t : pushed (a ++ b) t = pushed a t ++ pushed b t.
Proof. apply flat_map_app. Qed.
Lemma all_pushed_nth n ops t : (t < n)%nat -> nth_error (all_pushed n ops) t = Some (pushed ops t).
Proof. intros H. unfold all_pushed. erewrite map_nth_error; [reflexivity|]. rewrite (nth_error_nth' _ 0%nat) by (rewrite seq_length; auto). rewrite seq_nth; auto. Qed.
Lemma all_pushed_length n ops : length (all_pushed n ops) = n.
Proof. unfold all_pushed. rewrite map_length, seq_length. auto. Qed.
Lemma all_pushed_snoc n ops o : all_pushed n (ops ++ [o]) =
  match o with Push x t => match nth_error (all_pushed n ops) t with Some l => set_at t (l ++ [x]) (all_pushed n ops) | None => all_pushed n ops end | _ => all_pushed n ops end.
Proof.
  apply nth_error_ext. intros i. destruct (Nat.lt_ge_cases i n) as [Hi | Hi].
  - rewrite all_pushed_nth, pushed_app by auto. destruct o as [x t | b | tr | tr t | t | |]; cbn [pushed flat_map]; rewrite ?app_nil_r; try (rewrite all_pushed_nth; auto; fail).
    destruct (Nat.eqb_spec t i) as [-> | N].
    + rewrite all_pushed_nth, set_at_same by (auto; rewrite all_pushed_length; auto). auto.
    + rewrite app_nil_r. destruct (nth_error (all_pushed n ops) t); [rewrite set_at_other by auto|]; rewrite all_pushed_nth; auto.
  - transitivity (@None (list V3)); [apply nth_error_None; rewrite all_pushed_length; auto|]. symmetry. apply nth_error_None.
    destruct o as [x t | b | tr | tr t | t | |]; try (rewrite all_pushed_length; auto; fail).
    destruct (nth_error _ t); [rewrite set_at_length|]; rewrite all_pushed_length; auto.
Qed.
Lemma run_app eigs a b p : plane_run eigs (a ++ b) p = match plane_run eigs a p with None => None | Some q => plane_run eigs b q end.
Proof. revert p. induction a as [|o a IH]; intros p; cbn; auto. destruct (plane_step eigs o p); auto. Qed.
Lemma count_app n a b : count_pushed n (a ++ b) = (count_pushed n a + count_pushed n b)%nat.
Proof. unfold count_pushed. rewrite filter_app, app_length. auto. Qed.
Lemma all_pushed_nil n : all_pushed n [] = repeat [] n.
Proof. unfold all_pushed. assert (G : forall a, map (pushed []) (seq a n) = repeat [] n); [|apply G]. induction n; intros a; cbn; [auto | f_equal; auto]. Qed.
Lemma run_shape eigs n ops p : no_clear ops -> plane_run eigs ops (plane_new n) = Some p ->
  shape n (all_pushed n ops) p /\ pl_number p = count_pushed n ops.
Proof.
  revert p. induction ops as [|o ops IH] using rev_ind; intros p NC E.
  - cbn in E. injection E as <-. rewrite all_pushed_nil. split; [apply shape_new | reflexivity].
  - rewrite run_app in E. destruct (plane_run eigs ops (plane_new n)) as [q|] eqn:E1; [|discriminate]. cbn in E. destruct (plane_step eigs o q) as [q'|] eqn:E2; [|discriminate]. injection E as <-.
    destruct (IH q) as [H N]; auto. { intros I. apply NC, in_or_app. auto. }
    assert (o <> Clear) by (intros ->; apply NC, in_or_app; right; left; auto).
    destruct (step_shape eigs n _ q o q' H H0 E2) as [H2 N2]. split.
    + rewrite all_pushed_snoc. exact H2.
    + rewrite N2, N, count_app. rewrite Nat.add_comm. f_equal. unfold count_pushed. destruct o as [x t | b | tr | tr t | t | |]; cbn [filter]; try reflexivity. destruct (t <? n)%nat; reflexivity.
Qed.
(** the pushes alone never fail *)
Lemma push_ok eigs n pts p o : shape n pts p -> is_push o -> exists p', plane_step eigs o p = Some p'.
Proof.
  intros H (x & t & ->). cbn. destruct (Nat.lt_ge_cases t n) as [Ht | Ht].
  - destruct (shape_push n pts p x t H Ht) as (l & _ & p' & E & _). eauto.
  - rewrite (push_out n pts p x t H Ht). eauto.
Qed.
Lemma pushes_keep eigs n ops pts p : shape n pts p -> Forall is_push ops -> exists p', plane_run eigs ops p = Some p' /\
  pl_S p' = pl_S p /\ (exists pts', shape n pts' p').
Proof.
  intros H F. revert pts p H. induction F as [|o ops (x & t & ->) F IH]; intros pts p H; cbn [plane_run plane_step]; [exists p; eauto|].
  destruct (Nat.lt_ge_cases t n) as [Ht | Ht].
  - destruct (shape_push n pts p x t H Ht) as (l & _ & p' & E & H' & _ & S' & _). rewrite E. destruct (IH _ _ H') as (p2 & E2 & S2 & X). exists p2. rewrite S2, S'. auto.
  - rewrite (push_out n pts p x t H Ht). eauto.
Qed.
(** ** Mean *)
Lemma S_count l : mc (matrix_S l) = INR (length l).
Proof.
  rewrite matrix_S_msum. induction l as [|x l IH]; [reflexivity|]. cbn [map msum fold_right]. fold (msum (map (fun p => outer4 (hom p) (hom p)) l)).
  transitivity (1 + mc (msum (map (fun p => outer4 (hom p) (hom p)) l))); [cbn; ring|]. rewrite IH. cbn [length]. rewrite S_INR. ring.
Qed.
Lemma S_sum l : mt (matrix_S l) = v3sum l.
Proof.
  rewrite matrix_S_msum. induction l as [|x l IH]; [reflexivity|]. cbn [map msum fold_right]. fold (msum (map (fun p => outer4 (hom p) (hom p)) l)).
  transitivity (v3add x (mt (msum (map (fun p => outer4 (hom p) (hom p)) l)))); [generalize (msum (map (fun p => outer4 (hom p) (hom p)) l)); unfold outer4, hom; lin|]. rewrite IH. reflexivity.
Qed.
Lemma mean_spec t p l : nth_error (pl_S p) t = Some (matrix_S l) -> l <> [] -> get_mean_point t p = Some (Some (mean l)).
Proof.
  intros E NE. unfold get_mean_point. rewrite E. cbn. rewrite S_count, S_sum. destruct (Req_EM_T _ _) as [Z | NZ].
  - destruct l; [congruence|]. cbn [length] in Z. rewrite S_INR in Z. pose proof (pos_INR (length l)). lra.
  - unfold mean. reflexivity.
Qed.
