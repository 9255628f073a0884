(** Plane: Hessian and incremental estimates. *)
Require Import Reals List Arith Lia Lra Psatz Bool.
From Verif Require Import Lin LinFacts SO3 SE3 SpecGeom SO3Exp SO3Ln SE3Ops SE3Alg SE3Exp Sums Nodes Robust Graph Solve Session Factors SpecFactors FactorsDer Factors3D Factors3DLn SE3Tangent.
From Verif Require Import Registration SpecRegistration ArunProofs Planes SpecPlanes PlanesProofs PlanesEigen PlanesMore.
Import ListNotations.
Local Open Scope R_scope.

Definition gen (i : nat) : M4 := nth i lie_generators m4zero.
Definition axis6 (i : nat) : V6 := v6_of (fun j => if Nat.eqb i j then 1 else 0).
Lemma gen_axis i : (i < 6)%nat -> gen i = twist (axis6 i).
Proof.
  intros H. apply i_lt_6 in H. destruct H as [-> | [-> | [-> | [-> | [-> | ->]]]]]; unfold gen, lie_generators, axis6, v6_of, twist; cbn [nth Nat.eqb v6w v6v vx vy vz];
    apply m4_eq; try reflexivity; try (apply m3_eq; ring); try (apply v3_eq; ring).
Qed.
Lemma grad_gen Q i : m4tr Q = Q -> (i < 6)%nat -> nth i (grad_Q Q) m4zero = m4add (m4mul (gen i) Q) (m4mul Q (m4tr (gen i))).
Proof.
  intros S H. destruct Q as [[a b c d e f g h k] [j l m] [n o p] q]. unfold m4tr, m3tr in S. cbn in S. injection S; intros; subst. clear S.
  apply i_lt_6 in H. destruct H as [-> | [-> | [-> | [-> | [-> | ->]]]]]; unfold gen, lie_generators, grad_Q, plus_tr, of_rows, row0, row1, row2, row3, v4opp; cbn [nth]; lin.
Qed.
Lemma quad_plus_tr A v : quad4 (plus_tr A) v = 2 * quad4 A v. Proof. unfold plus_tr, quad4. lin. Qed.
Lemma quad_half A v : quad4 (m4scal (1 / 2) A) v = / 2 * quad4 A v.
Proof. unfold quad4. destruct A as [[] [] [] ?], v as [[] ?]. lin_unfold. field. Qed.
Lemma m4mul_scal_r A B k : m4mul A (m4scal k B) = m4scal k (m4mul A B). Proof. lin. Qed.
Lemma m4mul_add_l A B C : m4mul A (m4add B C) = m4add (m4mul A B) (m4mul A C). Proof. lin. Qed.
Lemma m4mul_add_r A B C : m4mul (m4add B C) A = m4add (m4mul B A) (m4mul C A). Proof. lin. Qed.
Lemma hessian_value Q v i j : m4tr Q = Q -> (i < 6)%nat -> (j < 6)%nat -> hessian_entry Q (grad_Q Q) v i j =
  quad4 (m4mul (m4mul (gen i) (gen j)) Q) v + quad4 (m4mul (m4mul (gen j) (gen i)) Q) v + 2 * quad4 (m4mul (m4mul (gen i) (gen j)) Q) v + 2 * quad4 (m4mul (gen i) (m4mul Q (m4tr (gen j)))) v.
Proof.
  intros S Hi Hj. unfold hessian_entry. rewrite (grad_gen Q j S Hj). fold (gen i) (gen j). generalize (gen i), (gen j). clear. intros A B.
  rewrite quad_plus_tr, quad4_add, m4mul_scal_r, quad_half, m4mul_add_r, m4mul_add_l, !quad4_add, <- m4assoc. field.
Qed.
(** the excess of the code's entry on an axis *)
Lemma hessian_axis Q v i : m4tr Q = Q -> (i < 6)%nat -> hessian_entry Q (grad_Q Q) v i i =
  quad4 (plus_tr (m4add (m4mul (m4mul (gen i) (gen i)) Q) (m4mul (gen i) (m4mul Q (m4tr (gen i)))))) v + 2 * quad4 (m4mul (m4mul (gen i) (gen i)) Q) v.
Proof. intros S Hi. rewrite hessian_value, quad_plus_tr, quad4_add by auto. ring. Qed.
Lemma hessian_run eigs n ops p tr e p1 t T v g p2 : no_clear ops -> plane_run eigs ops (plane_new n) = Some p -> Forall hom4 tr ->
  estimate_plane eigs tr p = Some (e, p1) -> (t < n)%nat -> nth_error tr t = Some T -> get_plane p1 = Some v -> calculate_gradient t p1 = Some (g, p2) ->
  exists l, nth_error (used n ops) t = Some l /\ calculate_hessian t p2 = Some (fun i j => if (i <=? j)%nat && (j <? 6)%nat then hessian_entry (conj4 T (matrix_S l)) (grad_Q (conj4 T (matrix_S l))) v i j else 0).
Proof.
  intros NC R F E Ht ET EV EG. destruct (gradient_run eigs n ops p tr e p1 t T v NC R F E Ht ET EV) as (l & p2' & EL & EG').
  destruct (estimated eigs n ops p tr e p1 NC R F E) as (_ & _ & _ & Q & _). exists l. split; auto.
  unfold calculate_gradient in EG. rewrite Q, (Q_at tr _ t T l ET EL) in EG. unfold get_plane in EV. rewrite EV in EG. injection EG as _ <-. unfold calculate_hessian. cbn [pl_Q pl_est pl_gradQ].
  rewrite (Q_at tr _ t T l ET EL). reflexivity.
Qed.
(** translations: the upper view is the exact second derivative *)
Lemma translation_curve d : is_exp_curve4 (twist (mkV6 v3zero d)) (fun s => se3_of_Rt m3id (v3scal s d)).
Proof.
  split; [unfold se3_of_Rt, m4id; f_equal; destruct d; lin|]. intros s. destruct d as [x y z]. unfold m4_derivative, m3_derivative, v3_derivative, twist, se3_of_Rt. lin_unfold.
  repeat match goal with |- _ /\ _ => split end; (eapply dl_eq; [der | cbv beta; ring]).
Qed.
Lemma hessian_translation Q v d : m4tr Q = Q ->
  sumn 3 (fun i => sumn 3 (fun j => v6_nth (mkV6 v3zero d) (3 + i) * v6_nth (mkV6 v3zero d) (3 + j) *
     upper_view (fun i j => if (i <=? j)%nat && (j <? 6)%nat then hessian_entry Q (grad_Q Q) v i j else 0) (3 + i) (3 + j))) =
  quad4 (plus_tr (m4add (m4mul (m4mul (twist (mkV6 v3zero d)) (twist (mkV6 v3zero d))) Q) (m4mul (twist (mkV6 v3zero d)) (m4mul Q (m4tr (twist (mkV6 v3zero d))))))) v.
Proof.
  intros S. rewrite quad_plus_tr. unfold sumn, upper_view. cbn [Nat.add Nat.leb Nat.ltb andb]. rewrite !hessian_value by (auto; lia).
  clear S. destruct Q as [[a b c e f g h i j] [k l m] [n o p] q], v as [[v1 v2 v3] v4], d as [x y z]. unfold gen, lie_generators, twist, quad4, v6_nth. cbn [nth]. lin_unfold. ring.
Qed.
Lemma hessian_translation_run eigs n ops p tr e p1 t T v g p2 h : no_clear ops -> plane_run eigs ops (plane_new n) = Some p -> Forall hom4 tr ->
  estimate_plane eigs tr p = Some (e, p1) -> (t < n)%nat -> nth_error tr t = Some T -> get_plane p1 = Some v -> calculate_gradient t p1 = Some (g, p2) ->
  calculate_hessian t p2 = Some h -> forall d, second_derivative (fun s => cloud_error v (replace_pose t (se3_update_lhs T (v6scal s (mkV6 v3zero d))) tr) (used n ops))
   (sumn 3 (fun i => sumn 3 (fun j => v6_nth (mkV6 v3zero d) (3 + i) * v6_nth (mkV6 v3zero d) (3 + j) * upper_view h (3 + i) (3 + j)))).
Proof.
  intros NC R F E Ht ET EV EG EH d. destruct (hessian_run eigs n ops p tr e p1 t T v g p2 NC R F E Ht ET EV EG) as (l & EL & EH'). rewrite EH' in EH. injection EH as <-.
  rewrite hessian_translation by (apply m4tr_conj, matrix_S_sym).
  destruct (second_along _ _ tr (used n ops) t T l v (translation_curve d) ltac:(intros s; split; reflexivity) ET EL F) as (f & A & B). exists f. split; [|exact B].
  intros s. eapply dl_ext; [|apply A]. intros s'. cbv beta. unfold se3_update_lhs. replace (v6scal s' (mkV6 v3zero d)) with (mkV6 v3zero (v3scal s' d)) by (destruct d; lin). rewrite se3_exp_zero_rot. reflexivity.
Qed.
(** ** Incremental estimates *)
Lemma same_but_replace t tr tr' T : same_but t tr tr' -> nth_error tr' t = Some T -> tr' = replace_pose t T tr.
Proof.
  intros [L H] E. apply nth_error_ext. intros i. assert (t < length tr)%nat by (rewrite L; apply nth_error_Some; congruence). rewrite replace_nth by auto.
  destruct (Nat.eqb_spec i t); [subst; auto | symmetry; auto].
Qed.
Lemma Q_of_change t tr tr' Ss T T' St : same_but t tr tr' -> nth_error tr t = Some T -> nth_error tr' t = Some T' -> nth_error Ss t = Some St ->
  msum (Q_of tr' Ss) = m4add (m4sub (msum (Q_of tr Ss)) (conj4 T St)) (conj4 T' St).
Proof.
  intros B E E' ES. rewrite (same_but_replace t tr tr' T' B E'). assert (t < length tr)%nat by (apply nth_error_Some; congruence).
  rewrite (Q_of_replace t T' tr Ss St) by auto.
  pose proof (Q_of_replace t T tr Ss St H ES) as X. rewrite (replace_same t T tr E) in X. rewrite X.
  generalize (msum (firstn t (Q_of tr Ss))), (msum (skipn (S t) (Q_of tr Ss))), (conj4 T St), (conj4 T' St). clear. lin.
Qed.
(** state after increments: the stored Q are those of the trajectory [base] *)
Record inc_state (n : nat) (base cur : list M4) (Ss : list M4) (p : plane) : Prop := {
  is_S : pl_S p = Ss; is_Q : pl_Q p = Q_of base Ss; is_acc : pl_acc p = Some (msum (Q_of cur Ss)) }.
Lemma increment_step eigs n base cur Ss p tr' t T T' St : inc_state n base cur Ss p -> same_but t cur tr' ->
  nth_error base t = Some T -> nth_error cur t = Some T -> nth_error tr' t = Some T' -> nth_error Ss t = Some St ->
  replaced_Q tr' t p = Some (msum (Q_of tr' Ss)) /\
  exists p', estimate_plane_incrementally eigs tr' t p = Some (e4_val (eigs (msum (Q_of tr' Ss))), p') /\ inc_state n base tr' Ss p' /\ pl_est p' = Some (e4_vec (eigs (msum (Q_of tr' Ss)))).
Proof.
  intros [A B C] SB E1 E2 E3 ES. assert (RQ : replaced_Q tr' t p = Some (msum (Q_of tr' Ss))).
  { assert (QB : nth_error (Q_of base Ss) t = Some (conj4 T St)) by (unfold Q_of; erewrite map_nth_error; [|rewrite nth_error_combine, E1, ES; reflexivity]; reflexivity).
    unfold replaced_Q. rewrite C, B, A, QB, E3, ES.
    rewrite (Q_of_change t cur tr' Ss T T' St SB E2 E3 ES). reflexivity. }
  split; auto. unfold estimate_plane_incrementally. rewrite RQ. eexists. split; [reflexivity|]. split; [constructor|]; auto.
Qed.
Definition inc_ops (l : list (list M4 * nat)) : list plane_op := map (fun q => Incremental (fst q) (snd q)) l.
Lemma increments_run eigs n base Ss l : forall cur p tr2, inc_state n base cur Ss p -> increments cur l tr2 -> NoDup (map snd l) ->
  (forall t, In t (map snd l) -> (t < length base)%nat /\ (t < length Ss)%nat /\ nth_error base t = nth_error cur t) -> length cur = length base ->
  exists p', plane_run eigs (inc_ops l) p = Some p' /\ inc_state n base tr2 Ss p' /\
   (l <> [] -> pl_est p' = Some (e4_vec (eigs (msum (Q_of tr2 Ss))))) /\ length tr2 = length base /\ (forall t, ~ In t (map snd l) -> nth_error tr2 t = nth_error cur t).
Proof.
  induction l as [|[tr1 t] l IH]; intros cur p tr2 HI HL ND HT LEN.
  - inversion HL; subst. exists p. split; [reflexivity|]. repeat split; try apply HI; auto. congruence.
  - inversion HL as [|? ? ? ? ? SB HL1]; subst. cbn [map snd] in *. apply NoDup_cons_iff in ND. destruct ND as [NI ND].
    destruct (HT t (or_introl eq_refl)) as (B1 & B2 & B3).
    assert (L1 : length tr1 = length base) by (destruct SB; congruence).
    destruct (nth_error base t) as [T|] eqn:E1; [|apply nth_error_None in E1; lia]. destruct (nth_error tr1 t) as [T'|] eqn:E3; [|apply nth_error_None in E3; lia].
    destruct (nth_error Ss t) as [St|] eqn:ES; [|apply nth_error_None in ES; lia].
    destruct (increment_step eigs n base cur Ss p tr1 t T T' St HI SB E1 (eq_sym B3) E3 ES) as (_ & p1 & EP & HI1 & V1).
    destruct (IH tr1 p1 tr2 HI1 HL1 ND) as (p2 & R2 & HI2 & V2 & L2 & K2); auto.
    { intros t' I. destruct (HT t' (or_intror I)) as (C1 & C2 & C3). repeat split; auto. rewrite C3. apply SB. intros ->. auto. }
    exists p2. cbn [inc_ops map plane_run plane_step fst snd]. rewrite EP. cbn [option_map snd]. split; [exact R2|]. split; auto. split; [|split; auto].
    + intros _. destruct l as [|q l]; [|apply V2; discriminate]. inversion HL1; subst. cbn in R2. injection R2 as <-. exact V1.
    + intros t' N. rewrite K2 by (intros I; apply N; right; exact I). symmetry. apply SB. intros ->. apply N. left. reflexivity.
Qed.
Lemma scatter_Q tr pts : Forall hom4 tr -> msum (Q_of tr (map matrix_S pts)) = scatter tr pts.
Proof. intros F. unfold Q_of. rewrite combine_map_r, map_map. cbn [fst snd]. apply scatter_def. auto. Qed.
Lemma after_estimate eigs n ops p tr e p1 : no_clear ops -> plane_run eigs ops (plane_new n) = Some p -> Forall hom4 tr -> estimate_plane eigs tr p = Some (e, p1) ->
  inc_state n tr tr (map matrix_S (used n ops)) p1.
Proof. intros NC R F E. destruct (estimated eigs n ops p tr e p1 NC R F E) as (_ & _ & _ & A & B & C). constructor; auto. rewrite scatter_Q; auto. Qed.
Lemma incremental_run eigs n ops p tr e p1 l tr2 : no_clear ops -> plane_run eigs ops (plane_new n) = Some p -> Forall hom4 tr -> estimate_plane eigs tr p = Some (e, p1) ->
  increments tr l tr2 -> NoDup (map snd l) -> Forall (fun q => (snd q < n)%nat) l -> Forall hom4 tr2 ->
  exists p2, plane_run eigs (inc_ops l) p1 = Some p2 /\ inc_state n tr tr2 (map matrix_S (used n ops)) p2 /\
   (l <> [] -> get_plane p2 = Some (e4_vec (eigs (scatter tr2 (used n ops))))) /\ length tr2 = length tr /\ (forall t, ~ In t (map snd l) -> nth_error tr2 t = nth_error tr t).
Proof.
  intros NC R F E HL ND B F2. destruct (estimated eigs n ops p tr e p1 NC R F E) as (Hn & _).
  destruct (increments_run eigs n tr (map matrix_S (used n ops)) l tr p1 tr2 (after_estimate eigs n ops p tr e p1 NC R F E) HL ND) as (p2 & R2 & H2 & V2 & L2 & K2); auto.
  - intros t I. apply in_map_iff in I. destruct I as (q & <- & I). rewrite Forall_forall in B. specialize (B q I). rewrite map_length, used_length. repeat split; auto. lia.
  - exists p2. split; auto. split; auto. split; auto. intros N. unfold get_plane. rewrite <- scatter_Q; auto.
Qed.
Lemma incremental_error eigs n ops p tr e p1 l tr2 p2 tr3 t : no_clear ops -> plane_run eigs ops (plane_new n) = Some p -> Forall hom4 tr -> estimate_plane eigs tr p = Some (e, p1) ->
  increments tr l tr2 -> NoDup (map snd l) -> Forall (fun q => (snd q < n)%nat) l -> Forall hom4 tr2 -> plane_run eigs (inc_ops l) p1 = Some p2 ->
  ~ In t (map snd l) -> (t < n)%nat -> same_but t tr2 tr3 -> Forall hom4 tr3 -> exact4 eigs (scatter tr3 (used n ops)) ->
  exists e', get_error_incremental eigs tr3 t p2 = Some e' /\ least (fun u => cloud_error u tr3 (used n ops)) e' /\
   exists p3 v, estimate_plane_incrementally eigs tr3 t p2 = Some (e', p3) /\ get_plane p3 = Some v /\ unit4 v /\ cloud_error v tr3 (used n ops) = e'.
Proof.
  intros NC R F E HL ND B F2 R2 NI Ht SB F3 X. destruct (estimated eigs n ops p tr e p1 NC R F E) as (Hn & _).
  destruct (incremental_run eigs n ops p tr e p1 l tr2 NC R F E HL ND B F2) as (p2' & R2' & HI & _ & L2 & K2). rewrite R2 in R2'. injection R2' as <-.
  assert (L3 : length tr3 = length tr) by (destruct SB; congruence).
  destruct (nth_error tr t) as [T|] eqn:E1; [|apply nth_error_None in E1; lia]. destruct (nth_error tr3 t) as [T'|] eqn:E3; [|apply nth_error_None in E3; lia].
  destruct (used_nth n ops t Ht) as [l0 EL]. assert (ES : nth_error (map matrix_S (used n ops)) t = Some (matrix_S l0)) by (apply map_nth_error; auto).
  assert (E2 : nth_error tr2 t = Some T) by (rewrite K2; auto).
  destruct (increment_step eigs n tr tr2 _ p2 tr3 t T T' _ HI SB E1 E2 E3 ES) as (RQ & p3 & EP & _ & V3). rewrite scatter_Q in * by auto.
  destruct (eigen_least _ _ X) as [LE QE]. exists (e4_val (eigs (scatter tr3 (used n ops)))). unfold get_error_incremental. rewrite RQ. split; [reflexivity|]. split.
  - destruct LE as [(v & A & C) M]. split; [exists v; split; auto; rewrite <- quad4_scatter; auto|]. intros u Hu. rewrite <- quad4_scatter. auto.
  - exists p3, (e4_vec (eigs (scatter tr3 (used n ops)))). repeat split; auto. apply X. rewrite <- quad4_scatter. auto.
Qed.
