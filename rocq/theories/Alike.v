(** Proofs for C101: the uncertainty of the same graph, built in another order. *)
Require Import Reals List Arith Lia Lra Bool Permutation.
From Verif Require Import Lin LinFacts SpecGeom Nodes Robust Graph GraphProofs Sums Solve SpecSolve SolveIndex SolveFrame SolveSums SolveBuild SolveProofs Session SessionProofs.
From Verif Require Import Factors SpecFactors FactorsSession FrameSolve SpecFrame SpecSolvable SolvableSession SpecMapping MappingSession LMMapping SpecReorder Reorder ReorderSolve SpecChain Chain Grow SpecPin.
Import ListNotations.
Local Open Scope R_scope.
Local Arguments nd : simpl never.
Local Arguments fa : simpl never.

Lemma combination_inc rob cs w g v i m u k : inv rob cs w -> combination w g v -> nth_error (nodes_of cs) i = Some (m, u) -> (k < nval_dim (state_of w i))%nat ->
  inc_of w v i k = match m with ANCHOR => 0 | _ => g i k end.
Proof.
  intros V K E Hk. destruct (mode_of rob cs w i m u V E) as (l & G & M & Id & _).
  assert (A : m <> ANCHOR -> inc_of w v i k = g i k).
  { intros NA. destruct (standard_active rob cs w i m u l V E NA G) as [a Ha]. destruct (act_in rob cs w V l (nth_error_In _ _ Ha)) as (i' & _ & Ii & _ & D). assert (i' = i) as -> by congruence.
    unfold inc_of. rewrite G, (increments_at w v a l k (gd_wf _ (iv_good _ _ _ V)) Ha), <- Id. apply (K a l k Ha). rewrite D. exact Hk. }
  destruct m; [apply A; discriminate|apply (anchor_inc rob cs w i u v k V E)|apply A; discriminate].
Qed.
Lemma dot_zero m (x : nat -> R) : dot m x x = 0 -> forall i, (i < m)%nat -> x i = 0.
Proof.
  intros D i Hi. assert (Q : x i * x i <= dot m x x); [|nra]. clear D. unfold dot. induction m as [|k IH]; [lia|]. cbn [sumn]. assert (0 <= sumn k (fun i => x i * x i)) by (apply sumn_nonneg; intros; nra). destruct (Nat.eq_dec i k) as [->|]; [lra|]. specialize (IH ltac:(lia)). nra.
Qed.
Lemma kernel_form m L x : (forall i, (i < m)%nat -> sumn m (fun j => L i j * x j) = 0) -> form m L x x = 0.
Proof. intros Z. rewrite form_rows. unfold dot. apply sumn_zero; intros i Hi. rewrite Z by auto. ring. Qed.
Section Alike.
Variables (rob : robust_type) (cs cs' : list pycall) (p q : nat -> nat) (s s' b b' : solver).
Hypothesis (NR : rob <> RANSAC) (P : Forall call_info cs) (P' : Forall call_info cs').
Hypothesis SC : same_cost rob p (length (nodes_of cs)) (flat_map facts cs) (flat_map facts cs').
Hypothesis H : pd rob cs cs' p q (s_w s) (s_w s').
Let n := g_stateDim (w_graph (s_w s)).
Let n' := g_stateDim (w_graph (s_w s')).
Hypothesis (F : forall x y, form n (s_L b) x y = gn_form (s_w s) x y) (F' : forall x y, form n' (s_L b') x y = gn_form (s_w s') x y).
Lemma combination_rel g g' v v' : combination (s_w s) g v -> combination (s_w s') g' v' -> (forall i k, (i < length (nodes_of cs))%nat -> g' (p i) k = g i k) -> rel cs p (s_w s) (s_w s') v v'.
Proof using H.
  intros K K' Gg i k Hi Hk. destruct (nth_error (nodes_of cs) i) as [[m u]|] eqn:E; [|apply nth_error_None in E; lia]. destruct (pr_mode _ _ _ _ _ _ _ H i m u E) as [u' E'].
  rewrite (combination_inc rob cs (s_w s) g v i m u k (pr_inv _ _ _ _ _ _ _ H) K E Hk). rewrite (combination_inc rob cs' (s_w s') g' v' (p i) m u' k (pr_inv' _ _ _ _ _ _ _ H) K' E'); [rewrite Gg by auto; reflexivity|].
  rewrite (pr_state _ _ _ _ _ _ _ H i Hi). exact Hk.
Qed.
Lemma covariance_rel C C' v v' u u' : nonsingular n' (s_L b') -> inverse_of n (s_L b) C -> inverse_of n' (s_L b') C' -> rel cs p (s_w s) (s_w s') v v' -> rel cs p (s_w s) (s_w s') u u' -> quad n' C' v' u' = quad n C v u.
Proof.
  intros NS I I' Rv Ru. assert (Qa : forall m A x z, quad m A x z = dot m x (fun i => sumn m (fun j => A i j * z j))) by (intros m A x z; unfold quad, dot; apply sumn_ext; intros i _; rewrite sumn_mult_l; apply sumn_ext; intros; ring).
  rewrite !Qa. set (y := fun i => sumn n (fun j => C i j * u j)). set (y' := fun i => sumn n' (fun j => C' i j * u' j)). set (z' := carry q (s_w s) (s_w s') y).
  assert (Rz : rel cs p (s_w s) (s_w s') y z') by (apply (rel_to rob cs cs' p q); exact H).
  assert (Ez : forall i, (i < n')%nat -> y' i = z' i).
  { apply (nonsingular_unique n' (s_L b') y' z' NS). 
    assert (Fz : forall x', form n' (s_L b') x' y' = form n' (s_L b') x' z').
    { intros x'. unfold y'. rewrite (inverse_form n' (s_L b') C' x' u' I'), F'. set (x := carry p (s_w s') (s_w s) x'). assert (Rx : rel cs p (s_w s) (s_w s') x x') by (apply (rel_from rob cs cs' p q); exact H).
      rewrite (rel_form rob cs cs' p q NR P P' SC (s_w s) (s_w s') x x' y z' H Rx Rz), <- F. unfold y. rewrite (inverse_form n (s_L b) C x u I). apply (rel_dot rob cs cs' p q (s_w s) (s_w s') x x' u u' H Rx Ru). }
    intros i Hi. specialize (Fz (fun k => if Nat.eqb k i then 1 else 0)). rewrite !form_rows in Fz. unfold dot in Fz. rewrite !(Chain.dot_unit n' _ i Hi) in Fz. exact Fz. }
  transitivity (dot n' v' z'). { unfold dot. apply sumn_ext; intros i Hi. rewrite (Ez i Hi). reflexivity. }
  apply (rel_dot rob cs cs' p q (s_w s) (s_w s') v v' y z' H Rv Rz).
Qed.
Hypothesis (Sy : forall x y, form n (s_L b) x y = form n (s_L b) y x) (Ps : forall x, 0 <= form n (s_L b) x x).
Hypothesis (Sy' : forall x y, form n' (s_L b') x y = form n' (s_L b') y x) (Ps' : forall x, 0 <= form n' (s_L b') x x).
Lemma determined_rel : nonsingular n (s_L b) <-> nonsingular n' (s_L b').
Proof.
  split; intros NS.
  - intros x' Z. set (x := carry p (s_w s') (s_w s) x'). assert (Rx : rel cs p (s_w s) (s_w s') x x') by (apply (rel_from rob cs cs' p q); exact H). pose proof (kernel_form n' (s_L b') x' Z) as Z'.
    rewrite F', (rel_form rob cs cs' p q NR P P' SC (s_w s) (s_w s') x x' x x' H Rx Rx), <- F in Z'. pose proof (NS x (form_kernel n (s_L b) x Sy Ps Z')) as Zx.
    apply dot_zero. unfold n'. rewrite (rel_dot rob cs cs' p q (s_w s) (s_w s') x x' x x' H Rx Rx). unfold dot. apply sumn_zero. intros i Hi. rewrite (Zx i Hi). ring.
  - intros x Z. set (x' := carry q (s_w s) (s_w s') x). assert (Rx : rel cs p (s_w s) (s_w s') x x') by (apply (rel_to rob cs cs' p q); exact H). pose proof (kernel_form n (s_L b) x Z) as Z'.
    rewrite F, <- (rel_form rob cs cs' p q NR P P' SC (s_w s) (s_w s') x x' x x' H Rx Rx), <- F' in Z'. pose proof (NS x' (form_kernel n' (s_L b') x' Sy' Ps' Z')) as Zx.
    apply dot_zero. unfold n. rewrite <- (rel_dot rob cs cs' p q (s_w s) (s_w s') x x' x x' H Rx Rx). unfold dot. apply sumn_zero. intros i Hi. rewrite (Zx i Hi). ring.
Qed.
End Alike.
