(** PlaneRegistration: the gradient handed to the optimizer. *)
Require Import Reals List Arith Lia Lra Psatz Bool.
From Verif Require Import Lin LinFacts SO3 SE3 SpecGeom SO3Exp SO3Ln SE3Ops SE3Alg SE3Exp Sums Nodes Robust Graph Solve Session Factors SpecFactors FactorsDer Factors3D Factors3DLn FactorsSession DenseProofs SE3Tangent.
From Verif Require Import Registration SpecRegistration ArunProofs RegistrationMore Optimizer OptimizerProofs Planes SpecPlanes PlanesProofs PlanesEigen PlanesMore PlanesHess SpecPlaneReg PlaneRegProofs PlaneRegMore PlaneRegSolve.
Import ListNotations.
Local Open Scope R_scope.

(** ** A minimiser with a gap is the only one *)
Lemma scalm_eigen Q v l : m4tr Q = Q -> unit4 v -> quad4 Q v = l -> (forall u, unit4 u -> l <= quad4 Q u) -> m4app Q v = v4scal l v.
Proof.
  intros S U E M. pose proof (psd_of_unit Q l M) as P. set (A := m4sub Q (m4scal l m4id)).
  assert (QA : forall u, quad4 A u = quad4 Q u - l * v4dot u u) by (intros u; unfold A, quad4; clear; lin).
  assert (SA : m4tr A = A). { unfold A. assert (X : m4tr (m4sub Q (m4scal l m4id)) = m4sub (m4tr Q) (m4scal l m4id)) by (clear; lin). rewrite X, S. reflexivity. }
  pose proof (psd_null A v SA) as N. rewrite QA in N. unfold unit4 in U. rewrite U, E in N.
  assert (Z : m4app A v = v4zero). { apply N; [intros w; rewrite QA; specialize (P w); lra | ring]. }
  assert (X : m4app A v = v4sub (m4app Q v) (v4scal l v)) by (unfold A; clear; lin). rewrite X in Z.
  revert Z. generalize (m4app Q v). clear. intros w Z. destruct w as [[a b c] d], v as [[x y z] t]. unfold v4sub, v4scal, v4zero in *. lin_unfold. injection Z as Z1 Z2 Z3 Z4. f_equal; [f_equal|]; lra.
Qed.
Lemma sole_separated Q v : m4tr Q = Q -> sole_least (quad4 Q) -> unit4 v -> (forall u, unit4 u -> quad4 Q v <= quad4 Q u) -> separated (quad4 Q) v (quad4 Q v).
Proof.
  intros S (v0 & l & U0 & E0 & M0 & gap & G & H) U M.
  assert (EL : quad4 Q v = l) by (apply Rle_antisym; [rewrite <- E0; auto | auto]). rewrite EL. exists gap. split; auto.
  destruct (split_unit v0 v U0 U) as (a & w & Ev & W & N).
  pose proof (scalm_eigen Q v0 l S U0 E0 M0) as EV0.
  assert (QW : quad4 Q v = a * a * l + quad4 Q w).
  { rewrite Ev, quad_split by auto. rewrite EV0, E0. replace (v4dot w (v4scal l v0)) with (l * v4dot w v0) by (clear; lin). rewrite W. ring. }
  pose proof (H w W) as HW. rewrite QW in EL. assert (v4dot w w = 0). { assert (0 <= v4dot w w) by (clear; unfold v4dot, v3dot; nra). nra. }
  apply v4dot_zero in H0. subst w.
  assert (A : a <> 0). { intros ->. revert N. clear. unfold v4dot, v4zero, v3dot, v3zero. cbn. lra. }
  intros u Hu. apply H. rewrite Ev in Hu. assert (X : v4dot u (v4add (v4scal a v0) v4zero) = a * v4dot u v0) by (clear; lin). rewrite X in Hu. apply Rmult_integral in Hu. tauto.
Qed.
(** ** A trajectory of curves *)
Definition at_s (cs : list (R -> M4)) (s : R) : list M4 := map (fun c => c s) cs.
Definition conj_dot (T D S : M4) : M4 := m4add (m4mul (m4mul D S) (m4tr T)) (m4mul (m4mul T S) (m4tr D)).
Fixpoint dot_sum (Ts Ds Ss : list M4) : M4 :=
  match Ts, Ds, Ss with
  | T :: Ts, D :: Ds, A :: Ss => m4add (conj_dot T D A) (dot_sum Ts Ds Ss)
  | _, _, _ => m4zero
  end.
Lemma conj_dot_der c D S : m4_derivative c 0 D -> m4_derivative (fun s => conj4 (c s) S) 0 (conj_dot (c 0) D S).
Proof.
  intros H. assert (H2 : m4_derivative (fun s => m4tr (c s)) 0 (m4tr D)) by (apply m4_der_tr; exact H).
  unfold conj4. eapply m4_der_eq; [apply m4_der_mul; [apply m4_der_mul; [exact H | apply m4_der_const] | exact H2]|].
  cbv beta. unfold conj_dot. generalize (c 0). clear. intros T. replace (m4mul T m4zero) with m4zero by (clear; lin). rewrite m4add_0_r. reflexivity.
Qed.
Lemma dot_sum_der cs Ds Ss : Forall2 (fun c D => m4_derivative c 0 D) cs Ds ->
  m4_derivative (fun s => msum (Q_of (at_s cs s) Ss)) 0 (dot_sum (at_s cs 0) Ds Ss).
Proof.
  intros F. revert Ss. induction F as [|c D cs Ds H F IH]; intros Ss; [exact (m4_der_const m4zero)|].
  destruct Ss as [|St Ss]; [exact (m4_der_const m4zero)|]. cbn [at_s map dot_sum]. unfold Q_of. cbn [at_s map combine fst snd msum fold_right].
  apply m4_der_add; [apply conj_dot_der; auto | apply IH].
Qed.
Lemma at_length cs s : length (at_s cs s) = length cs. Proof. apply map_length. Qed.
Lemma acc_der eigs pts p cs Ds : (forall Q, m4tr Q = Q -> exact4 eigs Q) -> S_used p = map matrix_S pts -> (forall s, Forall hom4 (at_s cs s)) ->
  Forall2 (fun c D => m4_derivative c 0 D) cs Ds -> sole_least (fun u => cloud_error u (at_s cs 0) pts) ->
  derivable_pt_lim (fun s => e4_val (eigs (acc_of (at_s cs s) p))) 0 (quad4 (dot_sum (at_s cs 0) Ds (S_used p)) (e4_vec (eigs (acc_of (at_s cs 0) p)))).
Proof.
  intros X SU HM F SL.
  assert (AC : forall s, acc_of (at_s cs s) p = scatter (at_s cs s) pts) by (intros s; apply acc_scatter; auto).
  assert (SY : forall s, m4tr (acc_of (at_s cs s) p) = acc_of (at_s cs s) p) by (intros s; rewrite AC; apply scatter_sym).
  destruct (X _ (SY 0)) as (U & EV & M).
  assert (VAL : quad4 (acc_of (at_s cs 0) p) (e4_vec (eigs (acc_of (at_s cs 0) p))) = e4_val (eigs (acc_of (at_s cs 0) p))).
  { unfold quad4. rewrite EV. set (l := e4_val _). set (v := e4_vec _) in *. replace (v4dot v (v4scal l v)) with (l * v4dot v v) by (clear; lin). rewrite U. ring. }
  assert (SL' : sole_least (quad4 (acc_of (at_s cs 0) p))).
  { destruct SL as (v & l & A & B & C & gap & G & D). exists v, l. rewrite AC. split; auto. split; [rewrite quad4_scatter; auto|]. split; [intros u Hu; rewrite quad4_scatter; auto|].
    exists gap. split; auto. intros u Hu. rewrite quad4_scatter. auto. }
  destruct (sole_separated _ _ (SY 0) SL' U) as (gap & G & SEP).
  { intros u Hu. rewrite VAL. specialize (M u). unfold unit4 in Hu. rewrite Hu in M. unfold quad4. lra. }
  rewrite VAL in SEP.
  refine (eigenvalue_derivative (fun s => acc_of (at_s cs s) p) _ _ _ gap _ (dot_sum_der cs Ds (S_used p) F) (SY 0) _ U EV G SEP).
  intros s. exact (proj1 (eigen_least _ _ (X _ (SY s)))).
Qed.
Lemma ecost_der eigs h l cs Ds : (forall Q, m4tr Q = Q -> exact4 eigs Q) -> Forall2 (same_plane eigs) h l -> (forall s, Forall hom4 (at_s cs s)) ->
  Forall2 (fun c D => m4_derivative c 0 D) cs Ds -> Forall (fun q : entry => sole_least (fun u => cloud_error u (at_s cs 0) (used (fst (snd q)) (snd (snd q))))) h ->
  derivable_pt_lim (fun s => ecost eigs (at_s cs s) l) 0 (lsum l (fun q => quad4 (dot_sum (at_s cs 0) Ds (S_used (snd q))) (e4_vec (eigs (acc_of (at_s cs 0) (snd q)))))).
Proof.
  intros X TK HM F SL. unfold ecost. induction TK as [|[i [n ops]] [j p] h l (E & L) TK IH]; [apply derivable_pt_lim_const|]. inversion SL as [|? ? S1 S2]; subst.
  rewrite lsum_cons. eapply dl_ext; [intros s; apply lsum_cons|]. apply dl_plus; [|apply IH; auto]. cbn [snd fst] in *. apply acc_der with (pts := used n ops); auto. eapply like_used; eauto.
Qed.
(** twists *)
Lemma conj_dot_twist T S v xi : m4tr S = S -> quad4 (conj_dot T (m4mul (twist xi) T) S) v = v6dot (gradient_of (conj4 T S) v) xi.
Proof.
  intros H. rewrite <- gradient_dot by (apply m4tr_conj; auto). f_equal. unfold conj_dot, conj4. rewrite m4trmul, !m4assoc. reflexivity.
Qed.
(** ** What calculate_gradient_hessian returns *)
(** state after the evaluation: Q and the estimate of every plane are those of [tr] *)
Definition looked (eigs : M4 -> eigen4) (tr : list M4) (q q1 : nat * plane) : Prop :=
  pl_Q (snd q1) = Q_of tr (S_used (snd q)) /\ pl_est (snd q1) = Some (e4_vec (eigs (acc_of tr (snd q)))).
Lemma looked_all eigs tr l e l1 : well l -> estimate_all eigs tr l = Some (e, l1) -> Forall2 (looked eigs tr) l l1.
Proof.
  intros W. revert e l1. induction W as [|[i p] l (n & pts & SH) W IH]; intros e l1 H; cbn in H; [injection H as _ <-; constructor|].
  destruct (estimate_plane eigs tr p) as [[e1 p1]|] eqn:E1; [|discriminate]. destruct (estimate_all eigs tr l) as [[s l2]|] eqn:E2; [|discriminate]. injection H as _ <-. constructor; [|eapply IH; eauto].
  cbn in *. destruct (Nat.le_gt_cases n (length tr)) as [G|G]; [|rewrite (estimate_short eigs n pts p tr SH G) in E1; discriminate].
  destruct (estimate_spec eigs n pts p tr SH G) as (p2 & E3 & _ & _ & _ & A & _ & B & _). rewrite E3 in E1. injection E1 as _ <-. split; auto.
Qed.
Lemma gh_planes_looked eigs tr t l l1 g h l2 : Forall2 (looked eigs tr) l l1 -> gh_planes t l1 = Some (g, h, l2) ->
  Forall2 (looked eigs tr) l l2 /\ Forall (fun q => (t < length (Q_of tr (S_used (snd q))))%nat) l /\
  (forall xi, v6dot g xi = lsum l (fun q => v6dot (gradient_of (nth t (Q_of tr (S_used (snd q))) m4zero) (e4_vec (eigs (acc_of tr (snd q))))) xi)) /\
  (forall i j, h i j = lsum l (fun q => if (i <=? j)%nat && (j <? 6)%nat then hessian_entry (nth t (Q_of tr (S_used (snd q))) m4zero) (grad_Q (nth t (Q_of tr (S_used (snd q))) m4zero)) (e4_vec (eigs (acc_of tr (snd q)))) i j else 0)).
Proof.
  intros F. revert g h l2. induction F as [|[i p] [j p1] l l1 (A & B) F IH]; intros g h l2 E; cbn [gh_planes] in E.
  - injection E as <- <- <-. repeat split; constructor || (intros xi; destruct xi as [[? ? ?] [? ? ?]]; rewrite lsum_nil; lin).
  - cbn [snd] in A, B. unfold calculate_gradient in E. rewrite A, B in E. destruct (nth_error (Q_of tr (S_used p)) t) as [Q|] eqn:EQ; [|discriminate].
    fold (gradient_of Q (e4_vec (eigs (acc_of tr p)))) in E. unfold calculate_hessian in E. cbn [pl_Q pl_est pl_gradQ] in E. rewrite EQ in E.
    replace (length (grad_Q Q) <? 6)%nat with false in E by reflexivity. destruct (gh_planes t l1) as [[[g1 h1] l3]|] eqn:EG; [|discriminate]. injection E as <- <- <-.
    destruct (IH _ _ _ eq_refl) as (C & D & G & H). split; [constructor; auto; split; auto|]. split; [constructor; auto; cbn [snd]; apply nth_error_Some; congruence|].
    rewrite (nth_error_nth _ _ m4zero EQ : nth t (Q_of tr (S_used (snd (i, p)))) m4zero = Q) || idtac. split.
    + intros xi. rewrite lsum_cons, <- G. cbn [snd]. rewrite (nth_error_nth _ _ m4zero EQ). generalize (gradient_of Q (e4_vec (eigs (acc_of tr p)))). clear. intros a. lin.
    + intros a b. rewrite lsum_cons, <- H. cbn [snd]. rewrite (nth_error_nth _ _ m4zero EQ). reflexivity.
Qed.
Lemma gh_poses_looked eigs tr n ts l l1 g h l2 : Forall2 (looked eigs tr) l l1 -> gh_poses n ts l1 = Some (g, h, l2) ->
  Forall2 (looked eigs tr) l l2 /\ (forall t, In t ts -> Forall (fun q => (t < length (Q_of tr (S_used (snd q))))%nat) l) /\
  (forall xi, v6dot g xi = lsum ts (fun t => 1 / INR (n - 1) * INR t * lsum l (fun q => v6dot (gradient_of (nth t (Q_of tr (S_used (snd q))) m4zero) (e4_vec (eigs (acc_of tr (snd q))))) xi))) /\
  (forall i j, (i < 6)%nat -> (j < 6)%nat -> h i j = lsum ts (fun t => 1 / INR (n - 1) * INR t *
     lsum l (fun q => hessian_entry (nth t (Q_of tr (S_used (snd q))) m4zero) (grad_Q (nth t (Q_of tr (S_used (snd q))) m4zero)) (e4_vec (eigs (acc_of tr (snd q)))) (Nat.min i j) (Nat.max i j)))).
Proof.
  revert l1 g h l2. induction ts as [|t ts IH]; intros l1 g h l2 F E; cbn [gh_poses] in E.
  - injection E as <- <- <-. split; auto. split; [intros t []|]. split; [intros [[? ? ?] [? ? ?]]; rewrite lsum_nil; lin | intros; rewrite lsum_nil; reflexivity].
  - destruct (gh_planes t l1) as [[[g1 h1] l3]|] eqn:EG; [|discriminate]. destruct (gh_poses n ts l3) as [[[g2 h2] l4]|] eqn:EP; [|discriminate]. cbv zeta in E. injection E as <- <- <-.
    destruct (gh_planes_looked eigs tr t l l1 g1 h1 l3 F EG) as (A & B & C & D). destruct (IH _ _ _ _ A EP) as (A2 & B2 & C2 & D2).
    split; auto. split; [intros u [<- | U]; auto|]. split.
    + intros xi. rewrite lsum_cons, <- C, <- C2. generalize (1 / INR (n - 1) * INR t). clear. intros w. lin.
    + intros i j Hi Hj. rewrite lsum_cons, <- (D2 i j Hi Hj). f_equal. f_equal. unfold upper_view. destruct (Nat.leb_spec i j) as [K|K].
      * rewrite D, Nat.min_l, Nat.max_r by auto. replace (i <=? j)%nat with true by (symmetry; apply Nat.leb_le; lia). replace (j <? 6)%nat with true by (symmetry; apply Nat.ltb_lt; lia). reflexivity.
      * rewrite D, Nat.min_r, Nat.max_l by lia. replace (j <=? i)%nat with true by (symmetry; apply Nat.leb_le; lia). replace (i <? 6)%nat with true by (symmetry; apply Nat.ltb_lt; lia). reflexivity.
Qed.
(** ** The curve of [sway] *)
Definition sway_curves (n : nat) (xi : V6) (tr : list M4) : list (R -> M4) :=
  map (fun q s => se3_update_lhs (snd q) (v6scal (s * (INR (fst q) / INR (n - 1))) xi)) (combine (seq 0 n) tr).
Lemma sway_at n xi tr s : at_s (sway_curves n xi tr) s = sway n xi s tr.
Proof. unfold at_s, sway_curves, sway. rewrite map_map. reflexivity. Qed.
Lemma combine_seq_nth {A} (l : list A) a t : nth_error (combine (seq a (length l)) l) t = option_map (fun x => ((a + t)%nat, x)) (nth_error l t).
Proof.
  revert a t. induction l as [|x l IH]; intros a [|t]; cbn; auto; [f_equal; f_equal; lia|]. rewrite IH. destruct (nth_error l t); cbn; auto. f_equal. f_equal. lia.
Qed.
Lemma sway_nth n xi s tr t : length tr = n -> nth_error (sway n xi s tr) t = option_map (fun T => se3_update_lhs T (v6scal (s * (INR t / INR (n - 1))) xi)) (nth_error tr t).
Proof. intros <-. unfold sway. rewrite nth_error_map, combine_seq_nth. destruct (nth_error tr t); reflexivity. Qed.
Lemma update_zero T : hom4 T -> se3_update_lhs T v6zero = T.
Proof.
  intros HT. change v6zero with (mkV6 v3zero v3zero). unfold se3_update_lhs. rewrite se3_exp_zero_rot. destruct HT as [A B]. destruct T as [Rm t b c]. cbn in A, B. subst. unfold se3_of_Rt. lin.
Qed.
Lemma scal_zero xi : v6scal 0 xi = v6zero. Proof. clear. lin. Qed.
Lemma sway_0 n xi tr : length tr = n -> Forall hom4 tr -> sway n xi 0 tr = tr.
Proof.
  intros L F. apply nth_error_ext. intros t. rewrite sway_nth by auto. destruct (nth_error tr t) as [T|] eqn:E; auto. cbn. rewrite Rmult_0_l, scal_zero, update_zero; auto.
  rewrite Forall_forall in F. apply F. eapply nth_error_In; eauto.
Qed.
Lemma sway_hom n xi s tr : Forall hom4 tr -> Forall hom4 (sway n xi s tr).
Proof.
  intros F. apply Forall_forall. intros T I. unfold sway in I. apply in_map_iff in I. destruct I as ([t T0] & <- & I). apply in_combine_r in I. apply update_hom. rewrite Forall_forall in F. auto.
Qed.
Lemma sway_length n xi s tr : length tr = n -> length (sway n xi s tr) = n.
Proof. intros <-. unfold sway. rewrite map_length, combine_length, seq_length. apply Nat.min_id. Qed.
Definition sway_dots (n : nat) (xi : V6) (tr : list M4) : list M4 :=
  map (fun q => m4mul (twist (v6scal (INR (fst q) / INR (n - 1)) xi)) (snd q)) (combine (seq 0 n) tr).
Lemma sway_der n xi tr : Forall hom4 tr -> Forall2 (fun c D => m4_derivative c 0 D) (sway_curves n xi tr) (sway_dots n xi tr).
Proof.
  intros F. unfold sway_curves, sway_dots. assert (G : Forall (fun q : nat * M4 => hom4 (snd q)) (combine (seq 0 n) tr)).
  { apply Forall_forall. intros [t T] I. apply in_combine_r in I. rewrite Forall_forall in F. cbn. auto. }
  induction G as [|[t T] l HT G IH]; constructor; auto. cbn [fst snd] in *.
  eapply m4_der_near with (d := 1); [lra | | apply (update_tangent T (v6scal (INR t / INR (n - 1)) xi)); exact HT].
  intros s _. apply (f_equal (se3_update_lhs T)). generalize (INR t / INR (n - 1)). clear. intros w. lin.
Qed.
Lemma quad_dot_twists (l : list (nat * M4)) (w : nat -> R) xi Ss v : Forall (fun St => m4tr St = St) Ss ->
  quad4 (dot_sum (map snd l) (map (fun q => m4mul (twist (v6scal (w (fst q)) xi)) (snd q)) l) Ss) v =
  lsum (combine l Ss) (fun q => w (fst (fst q)) * v6dot (gradient_of (conj4 (snd (fst q)) (snd q)) v) xi).
Proof.
  intros F. revert l. induction F as [|St Ss H F IH]; intros [|[t T] l]; cbn [map combine dot_sum]; try (rewrite lsum_nil; unfold quad4; destruct v as [[? ? ?] ?]; lin; fail).
  rewrite lsum_cons, quad4_add, IH, conj_dot_twist by auto. cbn [fst snd]. f_equal. generalize (gradient_of (conj4 T St) v), (w t). clear. intros; lin.
Qed.
(** ** The gradient *)
Lemma combine_snd_seq {A} (l : list A) a : map snd (combine (seq a (length l)) l) = l.
Proof. revert a. induction l as [|x l IH]; intros a; cbn; auto. rewrite IH. auto. Qed.
Lemma lsum_combine_index {A} (tr : list A) (Ss : list M4) (f : nat -> A -> M4 -> R) n d : length tr = n -> length Ss = n ->
  lsum (combine (combine (seq 0 n) tr) Ss) (fun q => f (fst (fst q)) (snd (fst q)) (snd q)) = lsum (seq 0 n) (fun t => f t (nth t tr d) (nth t Ss m4zero)).
Proof.
  intros L1 L2. symmetry. replace n with (length (combine (combine (seq 0 n) tr) Ss)) at 1 by (rewrite !combine_length, seq_length, L1, L2, !Nat.min_id; reflexivity).
  apply lsum_seq_list. intros t [[u T] St] E. cbn [Nat.add fst snd]. rewrite nth_error_combine in E. subst n. rewrite combine_seq_nth in E. cbn [Nat.add] in E.
  destruct (nth_error tr t) as [T'|] eqn:E1; [|discriminate]. destruct (nth_error Ss t) as [S'|] eqn:E2; [|discriminate]. cbn in E. injection E as <- <- <-.
  rewrite (nth_error_nth _ _ _ E1), (nth_error_nth _ _ _ E2). reflexivity.
Qed.
Lemma sum6_dot g xi : sumn 6 (fun i => v6_nth g i * v6_nth xi i) = v6dot g xi.
Proof. destruct g as [[? ? ?] [? ? ?]], xi as [[? ? ?] [? ? ?]]. unfold sumn, v6_nth. cbn [nth]. lin_unfold. ring. Qed.
Lemma like_sym eigs h l : Forall2 (same_plane eigs) h l -> Forall (fun q : nat * plane => Forall (fun St => m4tr St = St) (S_used (snd q))) l.
Proof.
  induction 1 as [|[i [n ops]] [j p] h l (E & L) F IH]; constructor; auto. cbn [snd fst] in *. rewrite (like_used _ _ _ _ L). apply Forall_map, Forall_forall. intros; apply matrix_S_sym.
Qed.
Lemma like_well eigs h l : Forall2 (same_plane eigs) h l -> well l.
Proof. induction 1 as [|[i [n ops]] [j p] h l (E & L) F IH]; constructor; auto. cbn [snd]. exists n, (all_pushed n ops). apply (proj1 (like_shape _ _ _ _ L)). Qed.
Lemma error_at eigs h r tr : Forall2 (same_plane eigs) h (pr_planes r) -> fits (length tr) h ->
  match get_current_error eigs (with_traj r tr) with Some (e, _) => e | None => 0 end = ecost eigs tr (pr_planes r).
Proof.
  intros TK FT. destruct (estimated_all eigs tr h _ TK FT) as (e & l' & E). unfold get_current_error. cbn [with_traj pr_traj pr_planes]. rewrite E. cbn [option_map].
  cbn [fst snd]. eapply estimate_cost; eauto. eapply like_well; eauto.
Qed.
Lemma gradient_swayed eigs h r r1 g H n : Forall2 (same_plane eigs) h (pr_planes r) -> pr_nposes r = n -> length (pr_traj r) = n -> (2 <= n)%nat -> Forall hom4 (pr_traj r) ->
  (forall Q, m4tr Q = Q -> exact4 eigs Q) -> Forall (fun q : entry => sole_least (fun u => cloud_error u (pr_traj r) (used (fst (snd q)) (snd (snd q))))) h ->
  pr_gradient_hessian eigs r = Some (r1, (6%nat, g, H)) -> forall xi,
  derivable_pt_lim (fun s => ecost eigs (sway n xi s (pr_traj r)) (pr_planes r)) 0 (sumn 6 (fun i => g i * v6_nth xi i)).
Proof.
  intros TK NP LT N HM X SL E xi. unfold pr_gradient_hessian in E. unfold get_current_error in E. destruct (estimate_all eigs (pr_traj r) (pr_planes r)) as [[e l1]|] eqn:EA; [|discriminate]. cbn [option_map fst snd with_planes pr_planes] in E.
  destruct (gh_poses _ _ l1) as [[[g0 h0] l2]|] eqn:EG; [|discriminate]. injection E as <- <- <-. rewrite sum6_dot, NP in *.
  pose proof (looked_all eigs _ _ _ _ (like_well _ _ _ TK) EA) as LK. destruct (gh_poses_looked eigs _ n _ _ _ _ _ _ LK EG) as (_ & LEN & G & _). rewrite G. clear G.
  eapply dl_ext; [intros s; rewrite <- sway_at; reflexivity|].
  pose proof (ecost_der eigs h (pr_planes r) (sway_curves n xi (pr_traj r)) (sway_dots n xi (pr_traj r)) X TK) as D. rewrite sway_at, (sway_0 n xi _ LT HM) in D.
  eapply dl_eq; [apply D|].
  - intros s. rewrite sway_at. apply sway_hom. auto.
  - apply sway_der. auto.
  - auto.
  - assert (SY := like_sym _ _ _ TK). assert (LS : Forall (fun q : nat * plane => length (S_used (snd q)) = n) (pr_planes r)).
    { specialize (LEN (n - 1)%nat ltac:(apply in_seq; lia)). rewrite Forall_forall in *. intros q I. specialize (LEN q I). unfold Q_of in LEN. rewrite map_length, combine_length, LT in LEN.
      assert (FT := estimated_fits eigs _ _ _ _ _ TK EA). clear - TK FT LT LEN I. revert I LEN. induction TK as [|[i [m ops]] [j p] h l (E & L) F IH]; intros I LEN; [destruct I|]. inversion FT as [|? ? F1 F2]; subst. cbn [fst snd] in *.
      destruct I as [<- | I]; [|apply IH; auto]. cbn [snd] in *. rewrite (like_used _ _ _ _ L), map_length, used_length in *. lia. }
    rewrite (lsum_ext (pr_planes r) _ (fun q => lsum (seq 1 (n - 1)) (fun t => 1 / INR (n - 1) * INR t * v6dot (gradient_of (nth t (Q_of (pr_traj r) (S_used (snd q))) m4zero) (e4_vec (eigs (acc_of (pr_traj r) (snd q))))) xi))).
    + rewrite lsum_exchange. apply lsum_ext. intros t _. rewrite lsum_scal. reflexivity.
    + intros q I. rewrite Forall_forall in SY, LS. specialize (SY q I). specialize (LS q I). unfold sway_dots.
      rewrite <- (combine_snd_seq (pr_traj r) 0) at 1. rewrite LT. rewrite (quad_dot_twists (combine (seq 0 n) (pr_traj r)) (fun t => INR t / INR (n - 1)) xi _ _ SY).
      rewrite (lsum_combine_index (pr_traj r) (S_used (snd q)) (fun t T St => INR t / INR (n - 1) * v6dot (gradient_of (conj4 T St) (e4_vec (eigs (acc_of (pr_traj r) (snd q))))) xi) n m4zero LT LS).
      replace n with (S (n - 1)) at 1 by lia. cbn [seq]. rewrite lsum_cons. cbn [INR]. unfold Rdiv at 1. rewrite !Rmult_0_l, Rplus_0_l. apply lsum_ext. intros t It. apply in_seq in It.
      unfold Q_of. assert (EN : nth t (map (fun q0 : M4 * M4 => conj4 (fst q0) (snd q0)) (combine (pr_traj r) (S_used (snd q)))) m4zero = conj4 (nth t (pr_traj r) m4zero) (nth t (S_used (snd q)) m4zero)).
      { apply nth_error_nth. rewrite nth_error_map, nth_error_combine. rewrite (nth_error_nth' (pr_traj r) m4zero) by lia. rewrite (nth_error_nth' (S_used (snd q)) m4zero) by lia. reflexivity. }
      rewrite EN. unfold Rdiv. ring.
Qed.
