(** Proofs for C102: the uncertainty of a planar session in two coordinate frames. *)
Require Import Reals List Arith Lia Lra Bool.
From Verif Require Import Lin LinFacts SpecGeom Nodes Robust Graph GraphProofs Sums Solve SpecSolve SolveIndex SolveFrame SolveSums SolveBuild SolveProofs Session SessionProofs.
From Verif Require Import Factors SpecFactors FactorsSession SpecFrame FrameSolve FrameSession SpecChain Chain Grow SpecPin Alike.
Import ListNotations.
Local Open Scope R_scope.
Local Arguments nd : simpl never.
Local Arguments fa : simpl never.

Lemma built_sym s b : wf (s_w s) -> built s b -> sym_infos (s_w s) -> forall x y, let n := g_stateDim (w_graph (s_w s)) in form n (s_L (build_info_adjacency b)) x y = form n (s_L (build_info_adjacency b)) y x.
Proof.
  intros W B Y x y n. unfold form, n. rewrite (normal_matrix s b x y W B), (normal_matrix s b y x W B). apply lsum_ext. intros l I. rewrite !quad_sym by (apply Y; assumption). f_equal. apply quad_comm. apply Y; assumption.
Qed.
Section Turned.
Variables (g : frame) (s s' b b' : solver).
Hypothesis (G : good (s_w s)) (G' : good (s_w s')) (S : sim true g (s_w s) (s_w s')) (B : built s b) (B' : built s' b').
Let n := g_stateDim (w_graph (s_w s)).
Let D := turn_all g (s_w s).
Let L := s_L (build_info_adjacency b).
Let L' := s_L (build_info_adjacency b').
Let W := gd_wf _ G.
Let P := sim_planar true g (s_w s) (s_w s') G S.
Lemma same_dim : g_stateDim (w_graph (s_w s')) = n.
Proof using S. unfold n. rewrite (sm_graph _ _ _ _ S). reflexivity. Qed.
Lemma turned_combination a a' v v' : combination (s_w s) a v -> combination (s_w s') a' v' -> (forall i k, a' i k = turn g (a i) k) -> same_below n v' (D v).
Proof using G G' S.
  intros K K' E p Hp. unfold n in Hp. rewrite (wf_state _ W) in Hp. destruct (pack_split _ _ _ Hp) as (m & l & k & M & Hk & ->). fold (col (s_w s) m).
  assert (I : In l (g_active (w_graph (s_w s)))) by (eapply nth_error_In; exact M). destruct (wf_active _ W l I) as [Hl _].
  assert (A : v' (col (s_w s) m + k)%nat = a' (n_id (nd (s_w s) l)) k).
  { rewrite <- (sim_col true g _ _ m G S). destruct (sm_node _ _ _ _ S l Hl) as (<- & _). apply K'; [rewrite (sm_graph _ _ _ _ S); exact M|]. rewrite (sim_ndim true g _ _ l S Hl). exact Hk. }
  rewrite A, E. unfold D, turn_all, col. rewrite (pack_at _ _ _ m l k M Hk). symmetry. apply (turn_ext g _ _ (ndim (s_w s) l)); auto. intros i Hi. rewrite (increments_at _ _ m l i W M). apply K; auto.
Qed.
Lemma turned_determined : nonsingular n L <-> nonsingular n L'.
Proof using G G' S B B'.
  split; intros NS.
  - apply (equiv_nonsingular n L L' D (turn_all (back g) (s_w s))); auto.
    + intros x y. apply (sys_form g s s' b b' G G' S B B').
    + intros x. apply turn_all_back; auto.
    + intros x y. apply turn_all_ext; auto.
    + apply turn_all_0; auto.
  - intros x Z. apply dot_zero. unfold n. rewrite <- (turn_all_dot g _ x x W P). fold n D. unfold dot. apply sumn_zero. intros i Hi.
    rewrite (NS (D x)); [ring| |exact Hi]. intros k Hk. rewrite <- (dot_unit n (fun i => sumn n (fun j => L' i j * D x j)) k Hk).
    change (dot n (FrameSolve.unit k) (fun i => sumn n (fun j => L' i j * D x j)) = 0). rewrite <- form_rows. set (y := turn_all (back g) (s_w s) (FrameSolve.unit k)).
    transitivity (form n L' (D y) (D x)). { apply form_below; [intros q Hq; symmetry; apply (turn_all_back g _ _ W P q Hq)|intros q Hq; reflexivity]. }
    unfold L', D, n. rewrite (sys_form g s s' b b' G G' S B B' y x). fold n L. rewrite form_rows. unfold dot. apply sumn_zero. intros q Hq. rewrite (Z q Hq). ring.
Qed.
Lemma turned_covariance C C' v v' u u' : inverse_of n L C -> inverse_of n L' C' -> same_below n v' (D v) -> same_below n u' (D u) -> quad n C' v' u' = quad n C v u.
Proof using G G' S B B'.
  intros I I' Ev Eu. assert (NS : nonsingular n L). { apply (inverse_nonsingular n L C); auto. intros x y. apply (built_sym s b W B). apply (sim_infos g _ _ S). }
  assert (Qa : forall A x z, quad n A x z = dot n x (fun i => sumn n (fun j => A i j * z j))) by (intros A x z; unfold quad, dot; apply sumn_ext; intros i _; rewrite sumn_mult_l; apply sumn_ext; intros; ring).
  assert (Sol : forall A B x, inverse_of n A B -> forall i, (i < n)%nat -> sumn n (fun j => A i j * sumn n (fun k => B j k * x k)) = x i).
  { intros A B0 x IA i Hi. rewrite <- (dot_unit n (fun i => sumn n (fun j => A i j * sumn n (fun k => B0 j k * x k))) i Hi). change (dot n (FrameSolve.unit i) (fun i => sumn n (fun j => A i j * sumn n (fun k => B0 j k * x k))) = x i). rewrite <- form_rows, (inverse_form n A B0 _ x IA). apply dot_unit; auto. }
  assert (E : same_below n (fun i => sumn n (fun j => C' i j * u' j)) (D (fun i => sumn n (fun j => C i j * u j)))).
  { apply (equiv_solution n L L' u u' D (turn_all (back g) (s_w s))).
    - intros x y. apply (sys_form g s s' b b' G G' S B B').
    - intros x. rewrite (dot_below n u' (D x) (D u) (D x)); [|exact Eu|intros i Hi; reflexivity]. apply turn_all_dot; auto.
    - intros x. apply turn_all_back; auto.
    - intros x y. apply turn_all_ext; auto.
    - exact NS.
    - apply (Sol L C u I).
    - apply (Sol L' C' u' I'). }
  rewrite !Qa. rewrite (dot_below n v' _ (D v) _ Ev E). apply turn_all_dot; auto.
Qed.
End Turned.
