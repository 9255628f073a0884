(** Proofs for C105: graphs whose normal matrices differ by a factor. *)
Require Import Reals List Arith Lia Lra Bool Permutation.
From Verif Require Import FrameFactors.
From Verif Require Import Lin LinFacts SpecGeom Nodes Robust Graph GraphProofs Sums Solve SpecSolve SolveIndex SolveFrame SolveSums SolveBuild SolveProofs Session SessionProofs.
From Verif Require Import Factors SpecFactors FactorsSession FrameSolve SpecFrame SpecSolvable SolvableSession DenseProofs SpecMapping MappingSession LMMapping SpecReorder Reorder ReorderSolve SpecFixed Fixed SpecTree Tree SpecParts Parts SpecChain Chain Grow SpecPin Alike.
Import ListNotations.
Local Open Scope R_scope.
Local Arguments nd : simpl never.
Local Arguments fa : simpl never.

Lemma solved_rows n L x y : (forall z, form n L z x = dot n z y) -> forall i, (i < n)%nat -> sumn n (fun j => L i j * x j) = y i.
Proof. intros F i Hi. specialize (F (FrameSolve.unit i)). rewrite form_rows, !FrameSolve.dot_unit in F by auto. exact F. Qed.
Section Scaled.
Variables (rob : robust_type) (cs cs' : list pycall) (p q : nat -> nat) (s s' b b' : solver) (a : R).
Hypothesis (Ha : 0 < a) (H : pd rob cs cs' p q (s_w s) (s_w s')).
Let n := g_stateDim (w_graph (s_w s)).
Let n' := g_stateDim (w_graph (s_w s')).
Hypothesis Sc : forall x x' y y', rel cs p (s_w s) (s_w s') x x' -> rel cs p (s_w s) (s_w s') y y' -> form n' (s_L b') x' y' = a * form n (s_L b) x y.
Hypothesis (Sy : forall x y, form n (s_L b) x y = form n (s_L b) y x) (Ps : forall x, 0 <= form n (s_L b) x x).
Hypothesis (Sy' : forall x y, form n' (s_L b') x y = form n' (s_L b') y x) (Ps' : forall x, 0 <= form n' (s_L b') x x).
Let Dt x x' y y' : rel cs p (s_w s) (s_w s') x x' -> rel cs p (s_w s) (s_w s') y y' -> dot n' x' y' = dot n x y.
Proof. intros; eapply rel_dot; eauto. Qed.
Let To x : exists x', rel cs p (s_w s) (s_w s') x x'.
Proof. eexists; eapply (rel_to rob cs cs'); exact H. Qed.
Let Fr x' : exists x, rel cs p (s_w s) (s_w s') x x'.
Proof. eexists; eapply (rel_from rob cs cs'); exact H. Qed.
Lemma scaled_determined : nonsingular n (s_L b) <-> nonsingular n' (s_L b').
Proof.
  split; intros NS.
  - intros x' Z. destruct (Fr x') as [x Rx]. pose proof (kernel_form n' (s_L b') x' Z) as Z'. rewrite (Sc x x' x x' Rx Rx) in Z'. assert (Zf : form n (s_L b) x x = 0) by nra. pose proof (NS x (form_kernel n (s_L b) x Sy Ps Zf)) as Zx.
    apply dot_zero. rewrite (Dt x x' x x' Rx Rx). unfold dot. apply sumn_zero. intros i Hi. rewrite (Zx i Hi). ring.
  - intros x Z. destruct (To x) as [x' Rx]. pose proof (kernel_form n (s_L b) x Z) as Z'. assert (Zf : form n' (s_L b') x' x' = 0) by (rewrite (Sc x x' x x' Rx Rx), Z'; ring). pose proof (NS x' (form_kernel n' (s_L b') x' Sy' Ps' Zf)) as Zx.
    apply dot_zero. rewrite <- (Dt x x' x x' Rx Rx). unfold dot. apply sumn_zero. intros i Hi. rewrite (Zx i Hi). ring.
Qed.
Lemma scaled_covariance C C' v v' u u' : inverse_of n (s_L b) C -> inverse_of n' (s_L b') C' -> rel cs p (s_w s) (s_w s') v v' -> rel cs p (s_w s) (s_w s') u u' -> quad n' C' v' u' = quad n C v u / a.
Proof.
  intros I I' Rv Ru. pose proof (inverse_nonsingular n (s_L b) C Sy I) as NS.
  assert (Qa : forall m A x z, quad m A x z = dot m x (fun i => sumn m (fun j => A i j * z j))) by (intros m A x z; unfold quad, dot; apply sumn_ext; intros i _; rewrite sumn_mult_l; apply sumn_ext; intros; ring).
  rewrite !Qa. set (y := fun i => sumn n (fun j => C i j * u j)). set (y' := fun i => sumn n' (fun j => C' i j * u' j)). destruct (Fr y') as [z Rz].
  assert (Ez : forall i, (i < n)%nat -> a * z i = y i).
  { apply (nonsingular_unique n (s_L b) (fun i => a * z i) y NS). intros i Hi. rewrite (solved_rows n (s_L b) (fun i => a * z i) u); auto; [rewrite (solved_rows n (s_L b) y u); auto; intros x; apply inverse_form, I|].
    intros x. destruct (To x) as [x' Rx]. rewrite <- (Dt x x' u u' Rx Ru), <- (inverse_form n' (s_L b') C' x' u' I'). fold y'. rewrite (Sc x x' z y' Rx Rz). unfold form. rewrite sumn_mult_l. apply sumn_ext. intros r _. rewrite sumn_mult_l. apply sumn_ext. intros; ring. }
  rewrite (Dt v v' z y' Rv Rz). apply (Rmult_eq_reg_l a); [|lra]. transitivity (dot n v y); [|field; lra]. unfold dot. rewrite sumn_mult_l. apply sumn_ext. intros i Hi. rewrite <- (Ez i Hi). ring.
Qed.
End Scaled.
(** ** every measurement several times *)
Lemma lsum_copies {A} (l : list A) F m : lsum (concat (repeat l m)) F = INR m * lsum l F.
Proof. induction m as [|m IH]; [cbn; rewrite lsum_nil; ring|]. cbn [repeat concat]. rewrite lsum_app, IH, S_INR. ring. Qed.
Section Copies.
Variables (rob : robust_type) (p : nat -> nat) (m : nat) (cs cs' : list pycall) (w w' : world).
Hypothesis (NR : rob <> RANSAC) (P : Forall call_info cs) (P' : Forall call_info cs') (V : inv rob cs w) (V' : inv rob cs' w') (O : Forall (order_kept p) cs).
Hypothesis (Pe : Permutation (concat (repeat (map (rename p) (flat_map measured cs)) m)) (flat_map measured cs')) (St : forall i, (i < length (nodes_of cs))%nat -> state_of w' (p i) = state_of w i).
Lemma copies_sum F F' : blunt F -> blunt F' -> (forall f f', alike p (length (nodes_of cs)) (state_of w) (state_of w') f f' -> F' f' = F f) -> lsum (flat_map facts cs') F' = INR m * lsum (flat_map facts cs) F.
Proof using V O Pe St.
  intros B B' AL. rewrite !lift_facts, <- (lift_measured F' cs' B'), <- (lsum_perm _ _ _ Pe), lsum_copies. f_equal. apply (renamed_sum rob p cs w (state_of w) (state_of w')); auto.
Qed.
Lemma copies_form x x' y y' : rel cs p w w' x x' -> rel cs p w w' y y' -> gn_form w' x' y' = INR m * gn_form w x y.
Proof using NR P P' V V' O Pe St.
  intros Rx Ry. rewrite (facts_form rob cs w V P NR), (facts_form rob cs' w' V' P' NR). apply copies_sum; [apply blunt_f|apply blunt_f|]. intros f f' Al. apply (proj2 (proj2 (alike_costs _ _ _ _ rob f f' Al) _ _ Rx) _ _ Ry).
Qed.
Lemma copies_chi2 : chi2_of w' = INR m * chi2_of w.
Proof using NR V V' O Pe St.
  rewrite (facts_chi2 rob cs w V NR), (facts_chi2 rob cs' w' V' NR). apply copies_sum; [apply blunt_c|apply blunt_c|]. intros f f' Al. apply (proj1 (alike_costs _ _ _ _ rob f f' Al)).
Qed.
Lemma copies_rhs x x' : rel cs p w w' x x' -> gn_rhs w' x' = INR m * gn_rhs w x.
Proof using NR P P' V V' O Pe St.
  intros Rx. rewrite (facts_rhs rob cs w V P NR), (facts_rhs rob cs' w' V' P' NR). apply copies_sum; [apply blunt_g|apply blunt_g|]. intros f f' Al. apply (proj1 (proj2 (alike_costs _ _ _ _ rob f f' Al) _ _ Rx)).
Qed.
Lemma copies_one q : (0 < m)%nat -> pd rob cs cs' p q w w' -> one_step 0 w -> one_step 0 w'.
Proof using NR P P' V V' O Pe St.
  intros Hm H On x Zx. assert (Ha : 0 < INR m) by (apply lt_0_INR, Hm). set (z := carry p w' w x). assert (Az : rel cs p w w' z x) by (apply (rel_from rob cs cs' p q); exact H). rewrite (copies_form z x z x Az Az) in Zx.
  assert (Z : same_below (g_stateDim (w_graph w)) z (fun _ => 0)) by (intros i Hi; apply On; auto; nra).
  apply (dot_zero (g_stateDim (w_graph w')) x). rewrite (rel_dot rob cs cs' p q w w' z x z x H Az Az). unfold dot. apply sumn_zero. intros i Hi. rewrite (Z i Hi). ring.
Qed.
End Copies.
Lemma copies_solved lin rob p q m cs cs' k la tol s s' t t' : exact lin -> rob <> RANSAC -> (0 < m)%nat -> Forall call_info cs -> Forall call_info cs' -> pd rob cs cs' p q (s_w s) (s_w s') -> Forall (order_kept p) cs ->
  Permutation (concat (repeat (map (rename p) (flat_map measured cs)) m)) (flat_map measured cs') -> one_step 0 (s_w s) -> solve lin GN k la tol s = Some t -> solve lin GN k la tol s' = Some t' ->
  forall i, (i < length (nodes_of cs))%nat -> state_of (s_w t') (p i) = state_of (s_w t) i.
Proof.
  intros X NR Hm P P' H O Pe On E E' i Hi. pose proof (pr_inv _ _ _ _ _ _ _ H) as V. pose proof (pr_inv' _ _ _ _ _ _ _ H) as V'. pose proof (pr_state _ _ _ _ _ _ _ H) as St. assert (Ha : 0 < INR m) by (apply lt_0_INR, Hm).
  pose proof (copies_one rob p m cs cs' _ _ NR P P' V V' O Pe St q Hm H On) as On'.
  destruct (gn_node lin rob cs k la tol s t X V On E) as (d & Ed & U). destruct (gn_node lin rob _ k la tol s' t' X V' On' E') as (d' & Ed' & U').
  set (y := carry p (s_w s') (s_w s) d'). assert (Ay : rel cs p (s_w s) (s_w s') y d') by (apply (rel_from rob cs cs' p q); exact H).
  assert (Sb : same_below (g_stateDim (w_graph (s_w s))) d y).
  { apply (step_unique 0 s d y (gd_wf _ (iv_good _ _ _ V)) On). intros z. set (z' := carry q (s_w s) (s_w s') z). assert (Az : rel cs p (s_w s) (s_w s') z z') by (apply (rel_to rob cs cs' p q); exact H). specialize (Ed' z'). rewrite (copies_rhs rob p m cs cs' _ _ NR P P' V V' O Pe St z z' Az), (copies_form rob p m cs cs' _ _ NR P P' V V' O Pe St z z' y d' Az Ay) in Ed'.
    apply Rmult_eq_reg_l in Ed'; [|lra]. rewrite <- Ed, Ed'. ring. }
  destruct (nth_error (nodes_of cs) i) as [[mo v]|] eqn:Ei; [|apply nth_error_None in Ei; lia]. destruct (pr_mode _ _ _ _ _ _ _ H i mo v Ei) as [v' Ei'].
  rewrite (U i mo v Ei), (U' (p i) mo v' Ei'). rewrite (St i Hi).
  assert (N : val_update (state_of (s_w s) i) (fun j => - inc_of (s_w s') d' (p i) j) = val_update (state_of (s_w s) i) (fun j => - inc_of (s_w s) d i j)); [|destruct mo; auto].
  apply val_update_ext. intros j Hj. f_equal. rewrite (below_inc rob cs _ V d y i j Sb Hi Hj). apply Ay; auto.
Qed.
