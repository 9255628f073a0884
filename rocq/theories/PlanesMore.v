(** Plane: estimates, gradients and incremental errors of any program. *)
Require Import Reals List Arith Lia Lra Psatz Bool.
From Verif Require Import Lin LinFacts SO3 SE3 SpecGeom SO3Exp SO3Ln SE3Ops SE3Alg SE3Exp Sums Nodes Robust Graph Solve Session Factors SpecFactors FactorsDer Factors3D Factors3DLn SE3Tangent.
From Verif Require Import Registration SpecRegistration ArunProofs Planes SpecPlanes PlanesProofs PlanesEigen.
Import ListNotations.
Local Open Scope R_scope.

(** ** What the next estimate uses *)
Lemma snapshot_length n r s : snapshot n r = Some s -> length s = n.
Proof.
  revert s. induction r as [|o r IH]; intros s H; cbn [snapshot] in H; [discriminate|].
  destruct o as [x t | [] | tr | tr t | t | |]; auto; try discriminate.
  - injection H as <-. apply all_pushed_length.
  - destruct (snapshot n r); [injection H as <-; auto | injection H as <-; apply all_pushed_length].
  - destruct (snapshot n r); [injection H as <-; auto | injection H as <-; apply all_pushed_length].
Qed.
Lemma used_length n ops : length (used n ops) = n.
Proof. unfold used. destruct (snapshot n (rev ops)) eqn:E; [apply (snapshot_length _ _ _ E) | apply all_pushed_length]. Qed.
Lemma S_used_snap p n s : pl_S p = map matrix_S s -> length s = n -> length (pl_points p) = n -> S_used p = map matrix_S s.
Proof. intros E L LP. unfold S_used. rewrite E. destruct s as [|a s]; cbn [map]; auto. cbn in L. destruct (pl_points p); [reflexivity | cbn in LP; lia]. Qed.
Lemma run_S eigs n ops p : no_clear ops -> plane_run eigs ops (plane_new n) = Some p ->
  pl_S p = match snapshot n (rev ops) with Some s => map matrix_S s | None => [] end.
Proof.
  revert p. induction ops as [|o ops IH] using rev_ind; intros p NC E.
  - cbn in E. injection E as <-. reflexivity.
  - rewrite run_app in E. destruct (plane_run eigs ops (plane_new n)) as [q|] eqn:E1; [|discriminate]. cbn [plane_run] in E. destruct (plane_step eigs o q) as [q'|] eqn:E2; [|discriminate]. injection E as <-.
    assert (NC1 : no_clear ops) by (intros I; apply NC, in_or_app; auto). assert (o <> Clear) by (intros ->; apply NC, in_or_app; right; left; auto).
    specialize (IH q NC1 eq_refl). destruct (run_shape eigs n ops q NC1 E1) as [SH _].
    rewrite rev_app_distr. cbn [rev app snapshot]. rewrite rev_involutive.
    assert (US : S_used q = match snapshot n (rev ops) with Some s => map matrix_S s | None => map matrix_S (all_pushed n ops) end).
    { destruct (snapshot n (rev ops)) as [s|] eqn:ES.
      - eapply S_used_snap; [exact IH | exact (snapshot_length _ _ _ ES) |]. rewrite (sh_pts _ _ _ SH). apply all_pushed_length.
      - unfold S_used. rewrite IH, (sh_pts _ _ _ SH). reflexivity. }
    destruct o as [x t | b | tr | tr t | t | |]; cbn [plane_step] in E2; [| | | | | congruence |].
    + destruct (Nat.lt_ge_cases t n) as [Ht | Ht].
      * destruct (shape_push n _ q x t SH Ht) as (l & _ & p' & E3 & _ & _ & S' & _). rewrite E3 in E2. injection E2 as <-. congruence.
      * rewrite (push_out n _ q x t SH Ht) in E2. injection E2 as <-. auto.
    + destruct b.
      * destruct (calc_S_true n _ q SH) as (p1 & E3 & _ & S' & _). rewrite E3 in E2. injection E2 as <-. exact S'.
      * destruct (calc_S_false n _ q SH) as (p1 & E3 & _ & S' & _). rewrite E3 in E2. injection E2 as <-. rewrite S', US. destruct (snapshot n (rev ops)); auto.
    + destruct (estimate_plane eigs tr q) as [[e p']|] eqn:E3; [|discriminate]. cbn in E2. injection E2 as <-.
      destruct (Nat.lt_ge_cases (length tr) n) as [Ht | Ht]; [rewrite (estimate_short eigs n _ q tr SH Ht) in E3; discriminate|].
      destruct (estimate_spec eigs n _ q tr SH Ht) as (p1 & E4 & _ & S' & _). rewrite E4 in E3. injection E3 as _ <-. rewrite S', US. destruct (snapshot n (rev ops)); auto.
    + unfold estimate_plane_incrementally in E2. destruct (replaced_Q tr t q); [|discriminate]. injection E2 as <-. exact IH.
    + unfold calculate_gradient in E2. destruct (nth_error (pl_Q q) t); [|discriminate]. destruct (pl_est q); [|discriminate]. injection E2 as <-. exact IH.
    + injection E2 as <-. reflexivity.
Qed.
Lemma run_used eigs n ops p : no_clear ops -> plane_run eigs ops (plane_new n) = Some p -> S_used p = map matrix_S (used n ops).
Proof.
  intros NC E. pose proof (run_S eigs n ops p NC E) as S. destruct (run_shape eigs n ops p NC E) as [SH _]. unfold used. destruct (snapshot n (rev ops)) as [s|] eqn:ES.
  - eapply S_used_snap; [exact S | exact (snapshot_length _ _ _ ES) |]. rewrite (sh_pts _ _ _ SH). apply all_pushed_length.
  - unfold S_used. rewrite S, (sh_pts _ _ _ SH). reflexivity.
Qed.
Lemma combine_map_r {A B C} (l : list A) (m : list B) (f : B -> C) : combine l (map f m) = map (fun q => (fst q, f (snd q))) (combine l m).
Proof. revert m. induction l as [|a l IH]; intros [|b m]; cbn; auto. f_equal. auto. Qed.
Lemma acc_scatter tr p pts : S_used p = map matrix_S pts -> Forall hom4 tr -> acc_of tr p = scatter tr pts.
Proof. intros E F. unfold acc_of, Q_of. rewrite E, combine_map_r, map_map. cbn [fst snd]. apply scatter_def. auto. Qed.

(** ** C60 *)
Lemma estimate_run eigs n ops p tr : no_clear ops -> plane_run eigs ops (plane_new n) = Some p -> (n <= length tr)%nat -> Forall hom4 tr ->
  exact4 eigs (scatter tr (used n ops)) -> exists e v p', estimate_plane eigs tr p = Some (e, p') /\ get_error p' = e /\ get_plane p' = Some v /\ unit4 v /\
  cloud_error v tr (used n ops) = e /\ least (fun u => cloud_error u tr (used n ops)) e.
Proof.
  intros NC E L F X. destruct (run_shape eigs n ops p NC E) as [SH _]. pose proof (run_used eigs n ops p NC E) as U.
  destruct (estimate_spec eigs n _ p tr SH L) as (p' & E1 & _ & _ & _ & _ & _ & V & _ & LA & _). rewrite (acc_scatter tr p _ U F) in *.
  destruct (eigen_least _ _ X) as [LE QE]. destruct X as (UN & _). exists (e4_val (eigs (scatter tr (used n ops)))), (e4_vec (eigs (scatter tr (used n ops)))), p'.
  repeat split; auto.
  - rewrite <- quad4_scatter. auto.
  - destruct LE as [(v & A & B) _]. exists v. rewrite <- quad4_scatter. auto.
  - intros v Hv. rewrite <- quad4_scatter. apply LE. auto.
Qed.
Lemma estimate_fails eigs n ops p tr : no_clear ops -> plane_run eigs ops (plane_new n) = Some p -> (length tr < n)%nat -> estimate_plane eigs tr p = None.
Proof. intros NC E L. destruct (run_shape eigs n ops p NC E) as [SH _]. eapply estimate_short; eauto. Qed.
Lemma plane_at_scal k v x : plane_at (v4scal k v) x = k * plane_at v x.
Proof. unfold plane_at. lin. Qed.
Lemma cloud_scal k v tr pts : cloud_error (v4scal k v) tr pts = k * k * cloud_error v tr pts.
Proof.
  unfold cloud_error. rewrite <- lsum_scal. apply lsum_ext. intros q _. rewrite <- lsum_scal. apply lsum_ext. intros x _. rewrite plane_at_scal. ring.
Qed.
Lemma least_any tr pts e v : least (fun u => cloud_error u tr pts) e -> e * v4dot v v <= cloud_error v tr pts.
Proof.
  intros [_ L]. rewrite <- quad4_scatter. apply psd_of_unit. intros u U. rewrite quad4_scatter. auto.
Qed.
Lemma error_below_distances tr pts e n d : least (fun u => cloud_error u tr pts) e -> v3sqn n = 1 -> e <= cloud_error (mkV4 n d) tr pts.
Proof.
  intros L N. pose proof (least_any tr pts e (mkV4 n d) L) as H. pose proof L as [(v & _ & <-) _].
  replace (v4dot (mkV4 n d) (mkV4 n d)) with (v3sqn n + d * d) in H by (destruct n; lin). rewrite N in H. pose proof (cloud_nonneg v tr pts). nra.
Qed.
Lemma lsum_zero_iff {A} (l : list A) f : (forall a, In a l -> 0 <= f a) -> (lsum l f = 0 <-> forall a, In a l -> f a = 0).
Proof.
  intros P. split; [|intros H; apply lsum_zero; auto]. induction l as [|b l IH]; intros H a I; [destruct I|]. rewrite lsum_cons in H.
  assert (0 <= f b) by (apply P; left; auto). assert (0 <= lsum l f) by (apply lsum_nonneg; intros; apply P; right; auto).
  destruct I as [-> | I]; [lra|]. apply IH; auto; [intros; apply P; right; auto | lra].
Qed.
Lemma cloud_zero v tr pts : cloud_error v tr pts = 0 <-> in_plane v tr pts.
Proof.
  unfold cloud_error, in_plane. rewrite lsum_zero_iff by (intros; apply lsum_nonneg; intros; apply Rle_0_sqr). split.
  - intros H T l x I J. specialize (H (T, l) I). cbn [fst snd] in H. rewrite lsum_zero_iff in H by (intros; apply Rle_0_sqr). specialize (H x J). apply Rmult_integral in H. tauto.
  - intros H [T l] I. cbn [fst snd]. apply lsum_zero. intros x J. rewrite (H T l x I J). ring.
Qed.
Lemma coplanar_iff tr pts e : some_point tr pts -> least (fun u => cloud_error u tr pts) e ->
  (e = 0 <-> exists n d, v3sqn n = 1 /\ in_plane (mkV4 n d) tr pts).
Proof.
  intros (T & l & x & I & J) L. pose proof L as [(v & U & E) M]. split.
  - intros ->. apply cloud_zero in E. assert (N : v3sqn (v4h v) <> 0).
    { intros Z. apply v3sqn_zero in Z. pose proof (E T l x I J) as H. unfold plane_at in H. rewrite Z in H. replace (v3dot v3zero (move T x)) with 0 in H by (generalize (move T x); clear; lin).
      unfold unit4, v4dot in U. rewrite Z in U. replace (v3dot v3zero v3zero) with 0 in U by lin. nra. }
    destruct (Spectral.normalise (v4h v)) as (k & K & K1); [intros Z; rewrite Z in N; apply N; lin|].
    exists (v3scal k (v4h v)), (k * v4l v). split; auto. intros T' l' x' I' J'. change (mkV4 (v3scal k (v4h v)) (k * v4l v)) with (v4scal k v). rewrite plane_at_scal, (E T' l' x' I' J'). ring.
  - intros (n & d & N & P). apply cloud_zero in P. pose proof (error_below_distances tr pts e n d L N). pose proof (cloud_nonneg v tr pts). lra.
Qed.

(** ** Staleness *)
Lemma snapshot_pushes n b r : Forall is_push b -> snapshot n (b ++ r) = snapshot n r.
Proof. induction 1 as [|o b (x & t & ->) F IH]; auto. Qed.
Lemma used_stale n ops tr b : Forall is_push b -> used n (ops ++ [Estimate tr] ++ b) = used n ops.
Proof.
  intros F. unfold used. rewrite !rev_app_distr. rewrite <- app_assoc, snapshot_pushes by (apply Forall_rev; auto). cbn [rev app snapshot]. rewrite rev_involutive.
  destruct (snapshot n (rev ops)); auto.
Qed.
Lemma used_pushes n ops : Forall is_push ops -> used n ops = all_pushed n ops.
Proof. intros F. unfold used. rewrite <- (app_nil_r (rev ops)), snapshot_pushes by (apply Forall_rev; auto). reflexivity. Qed.
Lemma all_pushed_ext n a b : (forall t, pushed a t = pushed b t) -> all_pushed n a = all_pushed n b.
Proof. intros H. unfold all_pushed. apply map_ext. auto. Qed.
Lemma used_reset n a b : Forall is_push b -> used n (a ++ [Reset] ++ b) = all_pushed n (a ++ b).
Proof.
  intros F. unfold used. rewrite !rev_app_distr. rewrite <- app_assoc, snapshot_pushes by (apply Forall_rev; auto). cbn [rev app snapshot].
  apply all_pushed_ext. intros t. rewrite !pushed_app. reflexivity.
Qed.
Lemma used_refresh n a : used n (a ++ [CalcS true]) = all_pushed n a.
Proof. unfold used. rewrite rev_app_distr. cbn [rev app snapshot]. rewrite rev_involutive. reflexivity. Qed.

(** ** Gradient *)
Lemma m4_der_tr F A : m4_derivative F 0 A -> m4_derivative (fun s => m4tr (F s)) 0 (m4tr A).
Proof. intros ((?&?&?&?&?&?&?&?&?) & (?&?&?) & (?&?&?) & ?). repeat split; assumption. Qed.
Lemma m4_der_add F G A B : m4_derivative F 0 A -> m4_derivative G 0 B -> m4_derivative (fun s => m4add (F s) (G s)) 0 (m4add A B).
Proof.
  intros ((?&?&?&?&?&?&?&?&?) & (?&?&?) & (?&?&?) & ?) ((?&?&?&?&?&?&?&?&?) & (?&?&?) & (?&?&?) & ?).
  repeat split; apply dl_plus; assumption.
Qed.
Lemma conj_der F S xi : m4_derivative F 0 (m4mul (twist xi) (F 0)) ->
  m4_derivative (fun s => conj4 (F s) S) 0 (m4add (m4mul (twist xi) (conj4 (F 0) S)) (m4mul (conj4 (F 0) S) (m4tr (twist xi)))).
Proof.
  intros H. unfold conj4. eapply m4_der_eq; [apply m4_der_mul; [apply m4_der_mul; [exact H | apply m4_der_const] | apply m4_der_tr; exact H]|].
  cbv beta. generalize (twist xi), (F 0). clear. intros X T.
  assert (A : forall P Q R, m4mul (m4mul P Q) R = m4mul P (m4mul Q R)) by lin. assert (T2 : forall P Q, m4tr (m4mul P Q) = m4mul (m4tr Q) (m4tr P)) by lin.
  assert (Z : m4mul T m4zero = m4zero) by lin. rewrite Z, m4add_0_r, T2, !A. reflexivity.
Qed.
Lemma m4tr_conj T S : m4tr S = S -> m4tr (conj4 T S) = conj4 T S.
Proof.
  intros H. unfold conj4. assert (T2 : forall P Q, m4tr (m4mul P Q) = m4mul (m4tr Q) (m4tr P)) by lin. assert (A : forall P Q R, m4mul (m4mul P Q) R = m4mul P (m4mul Q R)) by lin.
  assert (TT : forall P, m4tr (m4tr P) = P) by lin. rewrite !T2, TT, H, A. reflexivity.
Qed.
Lemma matrix_S_sym l : m4tr (matrix_S l) = matrix_S l.
Proof. rewrite matrix_S_msum. apply sym_msum. apply Forall_forall. intros A HA. apply in_map_iff in HA. destruct HA as (x & <- & _). apply outer_sym. Qed.
(** the six numbers returned by calculate_gradient *)
Definition gradient_of (Q : M4) (v : V4) : V6 := v6_of (fun i => quad4 (nth i (grad_Q Q) m4zero) v).
Lemma gradient_dot Q v xi : m4tr Q = Q -> quad4 (m4add (m4mul (twist xi) Q) (m4mul Q (m4tr (twist xi)))) v = v6dot (gradient_of Q v) xi.
Proof.
  intros S. destruct Q as [[a b c d e f g h i] [j k l] [m n o] p]. unfold m4tr, m3tr in S. cbn in S. injection S; intros; subst. clear S.
  destruct v as [[v1 v2 v3] v4], xi as [[w1 w2 w3] [t1 t2 t3]].
  unfold gradient_of, v6_of, grad_Q, plus_tr, of_rows, row0, row1, row2, row3, v4opp, quad4, twist. cbn [nth]. lin_unfold. ring.
Qed.
Lemma replace_nth t T tr i : (t < length tr)%nat -> nth_error (replace_pose t T tr) i = if Nat.eqb i t then Some T else nth_error tr i.
Proof.
  revert t i. induction tr as [|a tr IH]; intros [|t] [|i] H; cbn in *; try lia; auto. apply IH. lia.
Qed.
Lemma replace_length t T tr : (t < length tr)%nat -> length (replace_pose t T tr) = length tr.
Proof. intros H. unfold replace_pose. rewrite app_length, firstn_length. cbn [length]. rewrite skipn_length. lia. Qed.
Lemma replace_hom t T tr : Forall hom4 tr -> hom4 T -> Forall hom4 (replace_pose t T tr).
Proof.
  intros F H. unfold replace_pose. apply Forall_app. split; [|constructor; auto]; apply Forall_forall; intros x I; rewrite Forall_forall in F; apply F.
  - rewrite <- (firstn_skipn t tr). apply in_or_app. auto.
  - rewrite <- (firstn_skipn (S t) tr). apply in_or_app. auto.
Qed.
(** the accumulated matrix when only pose t changes *)
Lemma combine_replace t T tr (Ss : list M4) St : nth_error tr t <> None -> nth_error Ss t = Some St ->
  combine (replace_pose t T tr) Ss = firstn t (combine tr Ss) ++ (T, St) :: skipn (S t) (combine tr Ss).
Proof.
  revert t Ss. induction tr as [|a tr IH]; intros [|t] [|b Ss] H E; cbn in *; try congruence.
  f_equal. apply IH; auto.
Qed.
Lemma msum_app a b : msum (a ++ b) = m4add (msum a) (msum b).
Proof. induction a as [|x a IH]; cbn [app msum fold_right]; [rewrite m4add_0_l; reflexivity|]. fold (msum (a ++ b)). rewrite IH, m4add_assoc. reflexivity. Qed.
Lemma Q_of_replace t T tr Ss St : (t < length tr)%nat -> nth_error Ss t = Some St ->
  msum (Q_of (replace_pose t T tr) Ss) = m4add (m4add (msum (firstn t (Q_of tr Ss))) (msum (skipn (S t) (Q_of tr Ss)))) (conj4 T St).
Proof.
  intros H E. unfold Q_of. rewrite (combine_replace t T tr Ss St); auto; [|rewrite nth_error_Some; auto].
  rewrite map_app, msum_app. cbn [map fst snd msum fold_right]. rewrite firstn_map, skipn_map.
  fold (msum (map (fun q => conj4 (fst q) (snd q)) (skipn (S t) (combine tr Ss)))).
  generalize (msum (map (fun q : M4 * M4 => conj4 (fst q) (snd q)) (skipn (S t) (combine tr Ss)))), (msum (map (fun q : M4 * M4 => conj4 (fst q) (snd q)) (firstn t (combine tr Ss)))), (conj4 T St).
  clear. intros. rewrite m4add_assoc. f_equal. apply m4add_comm.
Qed.
Lemma replace_same t T tr : nth_error tr t = Some T -> replace_pose t T tr = tr.
Proof.
  intros E. apply nth_error_ext. intros i. assert (t < length tr)%nat by (apply nth_error_Some; congruence). rewrite replace_nth by auto. destruct (Nat.eqb_spec i t); subst; auto.
Qed.
Lemma scatter_replace t T tr pts l : (t < length tr)%nat -> nth_error pts t = Some l -> Forall hom4 tr -> hom4 T ->
  scatter (replace_pose t T tr) pts = m4add (m4add (msum (firstn t (Q_of tr (map matrix_S pts)))) (msum (skipn (S t) (Q_of tr (map matrix_S pts))))) (conj4 T (matrix_S l)).
Proof.
  intros H E F HT. rewrite <- scatter_def by (apply replace_hom; auto). rewrite <- (Q_of_replace t T tr (map matrix_S pts) (matrix_S l)); auto; [|apply map_nth_error; auto].
  unfold Q_of. rewrite combine_map_r, map_map. reflexivity.
Qed.
Lemma update_hom T xi : hom4 T -> hom4 (se3_update_lhs T xi).
Proof.
  intros [A B]. unfold se3_update_lhs. destruct xi as [w v]. rewrite se3_of_vec_block. cbn [v6w v6v]. generalize (so3_of_vec w), (m3app (Vmat w) v).
  destruct T as [Rm t b c]. cbn in A, B. subst. intros. unfold se3_of_Rt. split; lin.
Qed.
Lemma scatter_der tr pts t T l xi : nth_error tr t = Some T -> nth_error pts t = Some l -> Forall hom4 tr ->
  m4_derivative (fun s => scatter (replace_pose t (se3_update_lhs T (v6scal s xi)) tr) pts) 0
    (m4add (m4mul (twist xi) (conj4 T (matrix_S l))) (m4mul (conj4 T (matrix_S l)) (m4tr (twist xi)))).
Proof.
  intros ET EL F. assert (t < length tr)%nat as Ht by (apply nth_error_Some; congruence).
  assert (HT : hom4 T) by (rewrite Forall_forall in F; apply F; eapply nth_error_In; eauto).
  assert (U0 : se3_update_lhs T (v6scal 0 xi) = T).
  { replace (v6scal 0 xi) with (mkV6 v3zero v3zero) by (clear; lin). unfold se3_update_lhs. rewrite se3_exp_zero_rot.
    clear - HT. destruct HT as [A B]. destruct T as [Rm t b c]. cbn in A, B. subst. unfold se3_of_Rt. lin. }
  eapply m4_der_near with (d := 1); [lra | intros s _; apply scatter_replace with (l := l); auto; apply update_hom; auto|].
  eapply m4_der_eq; [apply m4_der_add; [apply m4_der_const | apply conj_der with (xi := xi)]|].
  - cbv beta. rewrite U0. apply update_tangent. exact HT.
  - cbv beta. rewrite U0, m4add_0_l. reflexivity.
Qed.
Lemma quad_der F A v : m4_derivative F 0 A -> derivable_pt_lim (fun s => quad4 (F s) v) 0 (quad4 A v).
Proof.
  intros ((?&?&?&?&?&?&?&?&?) & (?&?&?) & (?&?&?) & ?). destruct v as [[v1 v2 v3] v4]. unfold quad4. lc; lc. eapply dl_eq; [der | cbv beta; ring].
Qed.
Lemma estimated eigs n ops p tr e p1 : no_clear ops -> plane_run eigs ops (plane_new n) = Some p -> Forall hom4 tr ->
  estimate_plane eigs tr p = Some (e, p1) -> (n <= length tr)%nat /\ e = e4_val (eigs (scatter tr (used n ops))) /\ get_plane p1 = Some (e4_vec (eigs (scatter tr (used n ops)))) /\
  pl_Q p1 = Q_of tr (map matrix_S (used n ops)) /\ pl_acc p1 = Some (scatter tr (used n ops)) /\ pl_S p1 = map matrix_S (used n ops).
Proof.
  intros NC R F E. destruct (run_shape eigs n ops p NC R) as [SH _]. pose proof (run_used eigs n ops p NC R) as U.
  destruct (Nat.lt_ge_cases (length tr) n) as [Ht | Ht]; [rewrite (estimate_short eigs n _ p tr SH Ht) in E; discriminate|].
  destruct (estimate_spec eigs n _ p tr SH Ht) as (p' & E1 & _ & S1 & _ & Q1 & _ & V1 & A1 & _). rewrite E1 in E. injection E as <- <-.
  rewrite (acc_scatter tr p _ U F) in *. rewrite U in *. auto 10.
Qed.
Lemma Q_at tr pts t T l : nth_error tr t = Some T -> nth_error pts t = Some l -> nth_error (Q_of tr (map matrix_S pts)) t = Some (conj4 T (matrix_S l)).
Proof.
  intros A B. unfold Q_of. erewrite map_nth_error; [|rewrite nth_error_combine, A, (map_nth_error _ _ _ B); reflexivity]. reflexivity.
Qed.
Lemma used_nth n ops t : (t < n)%nat -> exists l, nth_error (used n ops) t = Some l.
Proof. intros H. destruct (nth_error (used n ops) t) eqn:E; eauto. apply nth_error_None in E. rewrite used_length in E. lia. Qed.
Lemma gradient_run eigs n ops p tr e p1 t T v : no_clear ops -> plane_run eigs ops (plane_new n) = Some p -> Forall hom4 tr ->
  estimate_plane eigs tr p = Some (e, p1) -> (t < n)%nat -> nth_error tr t = Some T -> get_plane p1 = Some v ->
  exists l p2, nth_error (used n ops) t = Some l /\ calculate_gradient t p1 = Some (gradient_of (conj4 T (matrix_S l)) v, p2).
Proof.
  intros NC R F E Ht ET EV. destruct (estimated eigs n ops p tr e p1 NC R F E) as (_ & _ & _ & Q & _). destruct (used_nth n ops t Ht) as [l EL].
  exists l. unfold calculate_gradient. rewrite Q, (Q_at tr _ t T l ET EL). unfold get_plane in EV. rewrite EV. eexists. split; [auto|]. reflexivity.
Qed.
Lemma gradient_fixed eigs n ops p tr e p1 t T v g p2 : no_clear ops -> plane_run eigs ops (plane_new n) = Some p -> Forall hom4 tr ->
  estimate_plane eigs tr p = Some (e, p1) -> (t < n)%nat -> nth_error tr t = Some T -> get_plane p1 = Some v -> calculate_gradient t p1 = Some (g, p2) ->
  forall xi, derivable_pt_lim (fun s => cloud_error v (replace_pose t (se3_update_lhs T (v6scal s xi)) tr) (used n ops)) 0 (v6dot g xi).
Proof.
  intros NC R F E Ht ET EV EG xi. destruct (gradient_run eigs n ops p tr e p1 t T v NC R F E Ht ET EV) as (l & p2' & EL & EG'). rewrite EG' in EG. injection EG as <- <-.
  rewrite <- gradient_dot by (apply m4tr_conj, matrix_S_sym). eapply dl_ext; [intros s; symmetry; apply quad4_scatter|]. apply quad_der. apply scatter_der; auto.
Qed.
Lemma gradient_eigen eigs n ops p tr e p1 t T v g p2 : no_clear ops -> plane_run eigs ops (plane_new n) = Some p -> Forall hom4 tr ->
  (forall Q, m4tr Q = Q -> exact4 eigs Q) ->
  estimate_plane eigs tr p = Some (e, p1) -> (t < n)%nat -> nth_error tr t = Some T -> get_plane p1 = Some v -> separated (fun u => cloud_error u tr (used n ops)) v e ->
  calculate_gradient t p1 = Some (g, p2) -> forall xi,
  derivable_pt_lim (fun s => match estimate_plane eigs (replace_pose t (se3_update_lhs T (v6scal s xi)) tr) p1 with Some (e, _) => e | None => 0 end) 0 (v6dot g xi).
Proof.
  intros NC R F X E Ht ET EV (gap & G & SEP) EG xi. destruct (gradient_run eigs n ops p tr e p1 t T v NC R F E Ht ET EV) as (l & p2' & EL & EG'). rewrite EG' in EG. injection EG as <- <-.
  destruct (estimated eigs n ops p tr e p1 NC R F E) as (Hn & Ee & Ev & _). rewrite EV in Ev. injection Ev as Ev.
  assert (HT : hom4 T) by (rewrite Forall_forall in F; apply F; eapply nth_error_In; eauto).
  assert (R1 : plane_run eigs (ops ++ [Estimate tr]) (plane_new n) = Some p1) by (rewrite run_app, R; cbn; rewrite E; reflexivity).
  assert (NC1 : no_clear (ops ++ [Estimate tr])) by (intros I; apply in_app_or in I; destruct I as [I | [I | []]]; [auto | discriminate]).
  assert (U1 : used n (ops ++ [Estimate tr]) = used n ops) by (pose proof (used_stale n ops tr [] ltac:(constructor)) as H; rewrite app_nil_r in H; exact H).
  rewrite <- gradient_dot by (apply m4tr_conj, matrix_S_sym).
  set (Qs := fun s => scatter (replace_pose t (se3_update_lhs T (v6scal s xi)) tr) (used n ops)).
  assert (U0 : se3_update_lhs T (v6scal 0 xi) = T).
  { replace (v6scal 0 xi) with (mkV6 v3zero v3zero) by (clear; lin). unfold se3_update_lhs. rewrite se3_exp_zero_rot. clear - HT. destruct HT as [A B]. destruct T as [Rm t b c]. cbn in A, B. subst. unfold se3_of_Rt. lin. }
  assert (Q0 : Qs 0 = scatter tr (used n ops)) by (unfold Qs; rewrite U0, replace_same; auto).
  refine (eigenvalue_derivative Qs _ v e gap _ (scatter_der tr (used n ops) t T l xi ET EL F) _ _ _ _ G _).
  - apply scatter_sym.
  - intros s. set (tr' := replace_pose t (se3_update_lhs T (v6scal s xi)) tr).
    assert (Lt : (t < length tr)%nat) by lia.
    destruct (estimate_run eigs n (ops ++ [Estimate tr]) p1 tr') as (e' & v' & p' & E' & _ & _ & _ & _ & L'); auto.
    + unfold tr'. rewrite replace_length; auto.
    + apply replace_hom; auto. apply update_hom; auto.
    + apply X, scatter_sym.
    + rewrite E'. rewrite U1 in L'. destruct L' as [(u & A & B) M]. unfold Qs. fold tr'. split; [exists u; split; auto; rewrite quad4_scatter; auto|]. intros u' Hu'. rewrite quad4_scatter. apply M. auto.
  - rewrite Ev. apply X, scatter_sym.
  - rewrite Q0, Ee, Ev. apply X, scatter_sym.
  - intros u Hu. rewrite Q0, quad4_scatter. auto.
Qed.
(** ** Hessian *)
Lemma m4_der_mul_at F G A B s : m4_derivative F s A -> m4_derivative G s B ->
  m4_derivative (fun s => m4mul (F s) (G s)) s (m4add (m4mul A (G s)) (m4mul (F s) B)).
Proof.
  intros ((?&?&?&?&?&?&?&?&?) & (?&?&?) & (?&?&?) & ?) ((?&?&?&?&?&?&?&?&?) & (?&?&?) & (?&?&?) & ?).
  unfold m4_derivative, m3_derivative, v3_derivative. lc; lc. mder.
Qed.
Lemma m4_der_const_at A s : m4_derivative (fun _ => A) s m4zero.
Proof. unfold m4_derivative, m3_derivative, v3_derivative. lc. repeat split; apply dl_const. Qed.
Lemma quad_der_at F A v s : m4_derivative F s A -> derivable_pt_lim (fun s => quad4 (F s) v) s (quad4 A v).
Proof.
  intros ((?&?&?&?&?&?&?&?&?) & (?&?&?) & (?&?&?) & ?). destruct v as [[v1 v2 v3] v4]. unfold quad4. lc; lc. eapply dl_eq; [der | cbv beta; ring].
Qed.
Lemma m4_der_eq_at F A B s : m4_derivative F s A -> A = B -> m4_derivative F s B. Proof. intros; subst; auto. Qed.
Lemma m4_der_add_at F G A B s : m4_derivative F s A -> m4_derivative G s B -> m4_derivative (fun s => m4add (F s) (G s)) s (m4add A B).
Proof.
  intros ((?&?&?&?&?&?&?&?&?) & (?&?&?) & (?&?&?) & ?) ((?&?&?&?&?&?&?&?&?) & (?&?&?) & (?&?&?) & ?).
  repeat split; apply dl_plus; assumption.
Qed.
Lemma m4assoc P Q R : m4mul (m4mul P Q) R = m4mul P (m4mul Q R). Proof. lin. Qed.
Lemma m4trmul P Q : m4tr (m4mul P Q) = m4mul (m4tr Q) (m4tr P). Proof. lin. Qed.
Lemma conj_der_at E X T S s : is_exp_curve4 X E ->
  m4_derivative (fun s => conj4 (m4mul (E s) T) S) s (m4add (m4mul X (conj4 (m4mul (E s) T) S)) (m4mul (conj4 (m4mul (E s) T) S) (m4tr X))).
Proof.
  intros [_ H]. specialize (H s).
  assert (H1 : m4_derivative (fun s => m4mul (E s) T) s (m4mul X (m4mul (E s) T))).
  { eapply m4_der_eq_at; [apply m4_der_mul_at; [exact H | apply m4_der_const_at]|]. cbv beta. rewrite m4assoc. replace (m4mul (E s) m4zero) with m4zero by (generalize (E s); clear; lin). apply m4add_0_r. }
  assert (H2 : m4_derivative (fun s => m4tr (m4mul (E s) T)) s (m4tr (m4mul X (m4mul (E s) T)))).
  { destruct H1 as ((?&?&?&?&?&?&?&?&?) & (?&?&?) & (?&?&?) & ?). repeat split; assumption. }
  unfold conj4. eapply m4_der_eq_at; [apply m4_der_mul_at; [apply m4_der_mul_at; [exact H1 | apply m4_der_const_at] | exact H2]|].
  cbv beta. generalize (m4mul (E s) T). intros U. replace (m4mul U m4zero) with m4zero by (clear; lin). rewrite m4add_0_r, m4trmul, !m4assoc. reflexivity.
Qed.
Lemma quad_lin2 X F A v s : m4_derivative F s A ->
  derivable_pt_lim (fun s => quad4 (m4add (m4mul X (F s)) (m4mul (F s) (m4tr X))) v) s (quad4 (m4add (m4mul X A) (m4mul A (m4tr X))) v).
Proof.
  intros H. apply (quad_der_at (fun s => m4add (m4mul X (F s)) (m4mul (F s) (m4tr X)))). 
  eapply m4_der_eq_at; [apply m4_der_add_at; [apply m4_der_mul_at; [apply m4_der_const_at | exact H] | apply m4_der_mul_at; [exact H | apply m4_der_const_at]]|].
  cbv beta. replace (m4mul m4zero (F s)) with m4zero by (generalize (F s); clear; lin). replace (m4mul (F s) m4zero) with m4zero by (generalize (F s); clear; lin). rewrite m4add_0_l, m4add_0_r. reflexivity.
Qed.
Lemma quad_const_add C A v : quad4 (m4add C A) v = quad4 C v + quad4 A v. Proof. apply quad4_add. Qed.
(** second derivative along a one-parameter group *)
Lemma second_along E X tr pts t T l v : is_exp_curve4 X E -> (forall s, hom4 (E s)) -> nth_error tr t = Some T -> nth_error pts t = Some l -> Forall hom4 tr ->
  second_derivative (fun s => cloud_error v (replace_pose t (m4mul (E s) T) tr) pts)
    (quad4 (plus_tr (m4add (m4mul (m4mul X X) (conj4 T (matrix_S l))) (m4mul X (m4mul (conj4 T (matrix_S l)) (m4tr X))))) v).
Proof.
  intros HE HH ET EL F. assert (t < length tr)%nat as Ht by (apply nth_error_Some; congruence).
  assert (HT : hom4 T) by (rewrite Forall_forall in F; apply F; eapply nth_error_In; eauto).
  assert (HX : forall s, hom4 (m4mul (E s) T)).
  { intros s. destruct (HH s) as [C D], HT as [A B]. revert C D A B. generalize (E s). clear. intros U. destruct T as [a b c d], U as [a' b' c' d']. cbn. intros. subst. split; lin. }
  set (Q := fun s => conj4 (m4mul (E s) T) (matrix_S l)).
  exists (fun s => quad4 (m4add (m4mul X (Q s)) (m4mul (Q s) (m4tr X))) v). split.
  - intros s. eapply dl_ext; [intros s'; rewrite <- quad4_scatter, (scatter_replace t _ tr pts l Ht EL F (HX s')), quad4_add; fold (Q s'); reflexivity|].
    eapply dl_eq; [apply dl_plus; [apply dl_const | apply quad_der_at; apply conj_der_at; exact HE]|]. cbv beta. fold (Q s). ring.
  - eapply dl_eq; [apply quad_lin2; apply conj_der_at; exact HE|]. destruct HE as [E0 _]. rewrite E0. replace (m4mul m4id T) with T by (clear; lin).
    pose proof (m4tr_conj T _ (matrix_S_sym l)) as SY. revert SY. generalize (conj4 T (matrix_S l)). clear. intros M SY.
    unfold plus_tr. rewrite <- !quad4_add || idtac.
    assert (A1 : forall A B, m4tr (m4add A B) = m4add (m4tr A) (m4tr B)) by lin. assert (TT : forall A, m4tr (m4tr A) = A) by lin.
    rewrite A1, !m4trmul, TT, SY.
    assert (D1 : forall A B C, m4mul A (m4add B C) = m4add (m4mul A B) (m4mul A C)) by lin. assert (D2 : forall A B C, m4mul (m4add B C) A = m4add (m4mul B A) (m4mul C A)) by lin.
    rewrite D1, D2, !m4assoc. f_equal. 
    generalize (m4mul X (m4mul X M)), (m4mul X (m4mul M (m4tr X))), (m4mul M (m4mul (m4tr X) (m4tr X))). clear. intros. rewrite !m4add_assoc. f_equal. f_equal. apply m4add_comm.
Qed.
