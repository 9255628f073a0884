(** Degrees of freedom: the algebra of the fit, and the sessions (proofs for C98). *)
Require Import Reals List Arith Lia Lra Bool.
From Verif Require Import Lin LinFacts SO3 SE3 Nodes NodesProofs Robust Graph GraphProofs Sums Solve SpecSolve SolveIndex SolveFrame SolveSums SolveBuild SolveProofs Session SessionProofs.
From Verif Require Import Factors SpecFactors FactorsSession FrameSolve SpecFrame SpecSolvable SolvableSession SpecChain Chain Grow SpecDof.
Import ListNotations.
Local Open Scope R_scope.

Section Algebra.
Variables (M n : nat) (A W C : nat -> nat -> R).
Hypothesis Sy : forall p q, (p < M)%nat -> (q < M)%nat -> W p q = W q p.
Definition gram2 (i j : nat) : R := sumn M (fun p => sumn M (fun q => A p i * W p q * A q j)).
Definition spread : nat -> nat -> R := times n (times n A C) (transposed A).
Hypothesis I : inverse_of n gram2 C.

Lemma times_assoc m k (X Y Z : nat -> nat -> R) i j : times k (times m X Y) Z i j = times m X (times k Y Z) i j.
Proof.
  unfold times. transitivity (sumn k (fun a => sumn m (fun b => X i b * Y b a * Z a j))).
  { apply sumn_ext; intros a _. rewrite sumn_mult_r. reflexivity. }
  rewrite sumn_swap. apply sumn_ext; intros b _. rewrite sumn_mult_l. apply sumn_ext; intros; ring.
Qed.
Lemma times_ext k X X' Y Y' i j : (forall a, (a < k)%nat -> X i a = X' i a) -> (forall a, (a < k)%nat -> Y a j = Y' a j) -> times k X Y i j = times k X' Y' i j.
Proof. intros E F. unfold times. apply sumn_ext; intros a Ha. rewrite E, F by auto. reflexivity. Qed.
Lemma gram2_times i j : gram2 i j = times M (transposed A) (times M W A) i j.
Proof. unfold gram2, times, transposed. apply sumn_ext; intros p _. rewrite sumn_mult_l. apply sumn_ext; intros; ring. Qed.
Lemma hat_left p q : hat M n A W C p q = times n A (times n C (times M (transposed A) W)) p q.
Proof. unfold hat. rewrite times_assoc, times_assoc. reflexivity. Qed.
(** a right inverse of a symmetric matrix is a left inverse *)
Lemma gram2_sym i j : gram2 i j = gram2 j i.
Proof.
  unfold gram2. rewrite sumn_swap. apply sumn_ext; intros p Hp. apply sumn_ext; intros q Hq. rewrite (Sy q p) by auto. ring.
Qed.
Lemma cov_sym i j : (i < n)%nat -> (j < n)%nat -> C i j = C j i.
Proof.
  intros Hi Hj. assert (D : forall j x, (j < n)%nat -> form n gram2 x (fun i => C i j) = x j).
  { intros k x Hk. rewrite form_rows. unfold dot. rewrite <- (dot_unit n x k) by lia. apply sumn_ext. intros a Ha. rewrite (I a k Ha) by lia. ring. }
  rewrite <- (D i (fun k => C k j) Hi). rewrite <- (D j (fun k => C k i) Hj). unfold form. rewrite sumn_swap. apply sumn_ext; intros a _. apply sumn_ext; intros b _. rewrite (gram2_sym b a). ring.
Qed.
Lemma inverse_left : inverse_of n C gram2.
Proof.
  intros i j Hi Hj. rewrite Nat.eqb_sym. rewrite <- (I j i Hj Hi). apply sumn_ext; intros k Hk. rewrite (cov_sym i k), (gram2_sym k j) by auto. ring.
Qed.
Lemma sumn_delta k j f : (j < k)%nat -> sumn k (fun a => f a * (if Nat.eqb a j then 1 else 0)) = f j.
Proof. intros Hj. rewrite (sumn_single k j); auto. { rewrite Nat.eqb_refl. ring. } intros a _ Na. apply Nat.eqb_neq in Na. rewrite Na. ring. Qed.
(** H A = A *)
Lemma hat_keeps p j : (j < n)%nat -> times M (hat M n A W C) A p j = A p j.
Proof.
  intros Hj. rewrite (times_ext M _ (times n A (times n C (times M (transposed A) W))) A A) by (intros; rewrite ?hat_left; reflexivity). rewrite times_assoc.
  rewrite (times_ext n A A _ (fun a b => if Nat.eqb a b then 1 else 0)); auto.
  - unfold times. apply (sumn_delta n j (fun a => A p a) Hj).
  - intros a Ha. rewrite times_assoc. rewrite <- (inverse_left a j Ha Hj). apply times_ext; auto. intros b Hb. rewrite times_assoc, gram2_times. reflexivity.
Qed.
(** H H = H *)
Lemma hat_twice p q : times M (hat M n A W C) (hat M n A W C) p q = hat M n A W C p q.
Proof.
  rewrite (times_ext M _ (hat M n A W C) _ (times n A (times n C (times M (transposed A) W)))) by (intros; rewrite ?hat_left; reflexivity).
  rewrite <- times_assoc, hat_left. apply times_ext; auto. intros a Ha. apply hat_keeps; auto.
Qed.
(** the trace is the number of unknowns *)
Lemma trace_swap m k (X Y : nat -> nat -> R) : trace m (times k X Y) = trace k (times m Y X).
Proof. unfold trace, times. rewrite sumn_swap. apply sumn_ext; intros a _. apply sumn_ext; intros; ring. Qed.
Lemma trace_ext m X Y : (forall i, (i < m)%nat -> X i i = Y i i) -> trace m X = trace m Y.
Proof. intros E. apply sumn_ext; auto. Qed.
Lemma trace_unit m X : (forall i, (i < m)%nat -> X i i = 1) -> trace m X = INR m.
Proof. intros E. unfold trace. rewrite (sumn_ext m _ (fun _ => 1)) by auto. clear. induction m; [reflexivity|]. rewrite S_INR. cbn [sumn]. lra. Qed.
Lemma hat_trace : trace M (hat M n A W C) = INR n.
Proof.
  rewrite (trace_ext M _ (times n A (times n C (times M (transposed A) W)))) by (intros; apply hat_left). rewrite trace_swap. apply trace_unit. intros i Hi.
  rewrite times_assoc. transitivity (times n C gram2 i i). { apply times_ext; auto. intros a _. rewrite times_assoc, gram2_times. reflexivity. } unfold times. rewrite (inverse_left i i Hi Hi), Nat.eqb_refl. reflexivity.
Qed.
(** the least squares fit *)
Definition rhs2 (r : nat -> R) (i : nat) : R := sumn M (fun p => sumn M (fun q => A p i * W p q * r q)).
Lemma fitted r p : sumn n (fun i => A p i * sumn n (fun j => C i j * rhs2 r j)) = sumn M (fun q => hat M n A W C p q * r q).
Proof.
  transitivity (times M (times n A (times n C (times M (transposed A) W))) (fun q _ => r q) p 0).
  - rewrite times_assoc. unfold times at 1. apply sumn_ext; intros i _. f_equal. rewrite times_assoc. unfold times at 1. apply sumn_ext; intros j _. f_equal. unfold rhs2, times, transposed. rewrite sumn_swap. apply sumn_ext; intros q _. rewrite sumn_mult_r. reflexivity.
  - unfold times at 1. apply sumn_ext; intros q _. rewrite <- hat_left. reflexivity.
Qed.
(** what a fit takes off the cost, as a form of the residuals *)
Definition taken (p q : nat) : R := sumn M (fun k => W p k * hat M n A W C k q).
Lemma rhs2_dot r v : dot n (rhs2 r) v = quad M W (fun p => sumn n (fun i => A p i * v i)) r.
Proof.
  unfold dot, rhs2, quad. transitivity (sumn n (fun i => sumn M (fun p => sumn M (fun q => A p i * v i * W p q * r q)))).
  { apply sumn_ext; intros i _. rewrite sumn_mult_r. apply sumn_ext; intros p _. rewrite sumn_mult_r. apply sumn_ext; intros; ring. }
  rewrite sumn_swap. apply sumn_ext; intros p _. rewrite sumn_swap. apply sumn_ext; intros q _. rewrite sumn_mult_r, sumn_mult_r. reflexivity.
Qed.
Lemma taken_form r : quad n C (rhs2 r) (rhs2 r) = quad M taken r r.
Proof.
  rewrite quad_apply, rhs2_dot. transitivity (quad M W (fun p => sumn M (fun q => hat M n A W C p q * r q)) r).
  { unfold quad. apply sumn_ext; intros p _. apply sumn_ext; intros q _. rewrite fitted. reflexivity. }
  unfold quad. transitivity (sumn M (fun p => sumn M (fun q => sumn M (fun a => r q * W q p * hat M n A W C p a * r a)))).
  { apply sumn_ext; intros p Hp. apply sumn_ext; intros q Hq. rewrite !sumn_mult_r. apply sumn_ext; intros a _. rewrite (Sy p q) by auto. ring. }
  rewrite sumn_swap. apply sumn_ext; intros q _. rewrite sumn_swap. apply sumn_ext; intros a _. unfold taken. rewrite sumn_mult_l, sumn_mult_r. apply sumn_ext; intros; ring.
Qed.
Lemma dot_plus_l u v x : dot n (fun i => u i + v i) x = dot n u x + dot n v x.
Proof. unfold dot. rewrite <- sumn_plus. apply sumn_ext; intros; ring. Qed.
Lemma rhs2_plus r d i : rhs2 (fun p => r p + sumn n (fun j => A p j * d j)) i = rhs2 r i + sumn n (fun j => gram2 i j * d j).
Proof.
  unfold rhs2, gram2. transitivity (sumn M (fun p => sumn M (fun q => A p i * W p q * r q)) + sumn M (fun p => sumn M (fun q => sumn n (fun j => A p i * W p q * A q j * d j)))).
  - rewrite <- sumn_plus. apply sumn_ext; intros p _. rewrite <- sumn_plus. apply sumn_ext; intros q _. rewrite Rmult_plus_distr_l, sumn_mult_l. f_equal. apply sumn_ext; intros; ring.
  - f_equal. transitivity (sumn M (fun p => sumn n (fun j => sumn M (fun q => A p i * W p q * A q j * d j)))). { apply sumn_ext; intros p _. apply sumn_swap. }
    rewrite sumn_swap. apply sumn_ext; intros j _. rewrite sumn_mult_r. apply sumn_ext; intros p _. rewrite sumn_mult_r. reflexivity.
Qed.
(** the least cost does not depend on the initial guess *)
Lemma value_shift r d : let r' := fun p => r p + sumn n (fun j => A p j * d j) in
  quad M W r' r' - quad n C (rhs2 r') (rhs2 r') = quad M W r r - quad n C (rhs2 r) (rhs2 r).
Proof.
  intros r'. set (Ad := fun p => sumn n (fun j => A p j * d j)). set (Ld := fun i => sumn n (fun j => gram2 i j * d j)).
  assert (Q : quad n C (rhs2 r') (rhs2 r') = quad n C (fun i => rhs2 r i + Ld i) (fun i => rhs2 r i + Ld i)).
  { unfold r'. apply quad_ext; intros i _; apply rhs2_plus. }
  rewrite Q. unfold r'. fold Ad. change (fun p => r p + sumn n (fun j => A p j * d j)) with (fun p => r p + Ad p). rewrite !quad_plus_l, !quad_plus_r.
  assert (R1 : forall u, quad n C u Ld = dot n u d).
  { intros u. unfold quad, dot. apply sumn_ext; intros i Hi. transitivity (u i * times n C (times n gram2 (fun j _ => d j)) i 0%nat). { unfold times. rewrite sumn_mult_l. apply sumn_ext; intros; unfold Ld; ring. } f_equal.
    rewrite <- times_assoc. unfold times at 1. rewrite <- (dot_unit n d i) by auto. apply sumn_ext; intros j Hj. unfold times. rewrite (inverse_left i j Hi Hj), Nat.eqb_sym. reflexivity. }
  assert (R2 : quad n C Ld (rhs2 r) = dot n (rhs2 r) d). { rewrite <- R1. unfold quad. rewrite sumn_swap. apply sumn_ext; intros i Hi. apply sumn_ext; intros j Hj. rewrite (cov_sym i j) by auto. ring. }
  assert (R3 : dot n (rhs2 r) d = quad M W Ad r) by apply rhs2_dot.
  assert (R4 : quad M W r Ad = quad M W Ad r). { unfold quad. rewrite sumn_swap. apply sumn_ext; intros i Hi. apply sumn_ext; intros j Hj. rewrite (Sy i j) by auto. ring. }
  assert (R5 : dot n Ld d = quad M W Ad Ad). { unfold quad, Ad. rewrite <- bilinear_form. unfold dot, Ld. apply sumn_ext; intros i _. rewrite sumn_mult_r. transitivity (sumn n (fun j => d j * gram2 j i * d i)). { apply sumn_ext; intros j _. rewrite gram2_sym. ring. } fold gram2. apply sumn_ext; intros j _. change (sumn M (fun p => sumn M (fun q => A p i * W p q * A q j))) with (gram2 i j). rewrite gram2_sym. ring. }
  rewrite !R1, R2, R3, R4, R5. ring.
Qed.
(** the average over noise whose second moments are the inverse of the weights *)
Variable S : nat -> nat -> R.
Hypothesis V : inverse_of M W S.
Lemma moment_quad {T} (l : list T) (r : T -> nat -> R) (k : R) (G : nat -> nat -> R) : (forall p q, (p < M)%nat -> (q < M)%nat -> lsum l (fun x => r x p * r x q) = k * S p q) ->
  lsum l (fun x => quad M G (r x) (r x)) = k * sumn M (fun p => sumn M (fun q => G p q * S p q)).
Proof.
  intros E. unfold quad. rewrite <- sumn_lsum, sumn_mult_l. apply sumn_ext; intros p Hp. rewrite <- sumn_lsum, sumn_mult_l. apply sumn_ext; intros q Hq.
  transitivity (G p q * lsum l (fun x => r x p * r x q)). { rewrite <- lsum_scal. apply lsum_ext; intros; ring. } rewrite E by auto. ring.
Qed.
Lemma weights_moment' : sumn M (fun p => sumn M (fun q => W p q * S p q)) = sumn M (fun q => sumn M (fun p => W q p * S p q)).
Proof. rewrite sumn_swap. apply sumn_ext; intros q Hq. apply sumn_ext; intros p Hp. rewrite (Sy p q) by auto. reflexivity. Qed.
Lemma weights_moment : sumn M (fun p => sumn M (fun q => W p q * S p q)) = INR M.
Proof. rewrite weights_moment'. apply (trace_unit M (times M W S)). intros i Hi. unfold times. rewrite (V i i Hi Hi), Nat.eqb_refl. reflexivity. Qed.
Lemma taken_moment : sumn M (fun p => sumn M (fun q => taken p q * S p q)) = INR n.
Proof.
  rewrite <- hat_trace. unfold taken. rewrite sumn_swap. unfold trace. apply sumn_ext; intros q Hq.
  transitivity (sumn M (fun p => sumn M (fun k => hat M n A W C k q * (W k p * S p q)))).
  { apply sumn_ext; intros p Hp. rewrite sumn_mult_r. apply sumn_ext; intros k Hk. rewrite (Sy p k) by auto. ring. }
  rewrite sumn_swap. transitivity (sumn M (fun k => hat M n A W C k q * (if Nat.eqb k q then 1 else 0))).
  { apply sumn_ext; intros k Hk. rewrite <- sumn_mult_l. rewrite (V k q Hk Hq). reflexivity. } apply (sumn_delta M q (fun k => hat M n A W C k q) Hq).
Qed.
End Algebra.
(** ** the problem of a session *)
Record fit (s b : solver) (M n : nat) : Prop := {
  ft_L : s_L b = gram2 M (Amat b) (Wmat b);
  ft_b : s_b b = rhs2 M (Amat b) (Wmat b) (s_r b);
  ft_sym : forall p q, Wmat b p q = Wmat b q p;
  ft_psd : forall v, 0 <= quad M (Wmat b) v v;
  ft_pos : forall x, 0 <= form n (s_L b) x x;
  ft_cost : forall x, lin_cost (s_w s) (increments (s_w s) x) = quad M (Wmat b) (s_r b) (s_r b) + 2 * dot n (s_b b) x + form n (s_L b) x x }.
Lemma session_fit lin rob cs s b : typed [] cs -> Forall call_info cs -> rob <> RANSAC -> pycalls lin rob (solver_new world_new) cs = Some s -> build_problem false s = Some b ->
  wf (s_w s) /\ fit s b (g_obsDim (w_graph (s_w s))) (g_stateDim (w_graph (s_w s))).
Proof.
  intros Ty P NR E Eb. destruct (session_inv lin rob cs Ty) as (s0 & E0 & V & _). rewrite E in E0. injection E0 as <-.
  pose proof (gd_wf _ (iv_good _ _ _ V)) as Wf. split; auto. destruct (inv_infos rob cs (s_w s) V P NR) as (Sy & Ps & We).
  destruct (build_wf s Wf) as (b0 & E1 & B). unfold build_problem in Eb. rewrite E1 in Eb. injection Eb as <-.
  assert (D : g_obsDim (w_graph (s_w b0)) = g_obsDim (w_graph (s_w s))) by (rewrite (sk_graph _ _ (bt_skel _ _ B)); reflexivity).
  assert (Wn : weights_nonneg (s_w s)) by (intros l Il; left; apply We; auto).
  constructor.
  - unfold build_info_adjacency. cbn [s_L]. rewrite D. reflexivity.
  - unfold build_info_adjacency. cbn [s_b]. rewrite D. reflexivity.
  - intros p q. unfold Wmat, upper_sym. destruct (Nat.leb_spec p q), (Nat.leb_spec q p); auto; [|lia]. replace p with q by lia. reflexivity.
  - intros v. unfold Wmat, quad. cbn [build_info_adjacency s_W]. rewrite (W_form _ _ _ _ Wf B). apply lsum_nonneg. intros p Hp. apply index_factors_in in Hp. destruct Hp as (i & Hi & _). pose proof (nth_error_In _ _ Hi) as Il.
    rewrite quad_sym by (apply Sy; auto). apply Rmult_le_pos; [apply Wn; auto|apply Ps; auto].
  - intros x. apply form_psd; auto.
  - intros x. rewrite (lin_cost_poly s b0 x Wf Sy B). unfold dot. f_equal. f_equal. unfold Wmat, quad. cbn [build_info_adjacency s_W s_r]. rewrite (W_form _ _ _ _ Wf B). rewrite <- (lsum_index (s_w s) _ _ 0). apply lsum_ext. intros p Hp. apply index_factors_in in Hp. destruct Hp as (i & Hi & Hf). pose proof (nth_error_In _ _ Hi) as Il. rewrite Nat.add_0_l in Hf.
    rewrite quad_sym by (apply Sy; auto). f_equal. symmetry. apply quad_ext; intros l Hl; rewrite Hf; apply (bt_r _ _ B _ _ _ Hi Hl).
Qed.
(** the least cost *)
Lemma least_value s b M n C c : wf (s_w s) -> fit s b M n -> inverse_of n (s_L b) C -> least_cost (s_w s) c -> c = quad M (Wmat b) (s_r b) (s_r b) - quad n C (s_b b) (s_b b).
Proof.
  intros Wf F I [(d & A & Ed) Lo]. set (y := fun i => sumn n (fun j => C i j * s_b b j)).
  assert (Y : forall x, form n (s_L b) x y = dot n x (s_b b)) by (intros x; apply inverse_form; auto).
  assert (Sf : forall x z, form n (s_L b) x z = form n (s_L b) z x).
  { intros x z. unfold form. rewrite sumn_swap. apply sumn_ext; intros i _. apply sumn_ext; intros j _. rewrite (ft_L _ _ _ _ F), (gram2_sym M (Amat b) (Wmat b) (fun p q _ _ => ft_sym _ _ _ _ F p q) j i). ring. }
  assert (Qc : quad n C (s_b b) (s_b b) = dot n (s_b b) y) by (apply quad_apply).
  assert (K : forall x, lin_cost (s_w s) (increments (s_w s) x) = quad M (Wmat b) (s_r b) (s_r b) - quad n C (s_b b) (s_b b) + form n (s_L b) (fun i => x i + y i) (fun i => x i + y i)).
  { intros x. rewrite (ft_cost _ _ _ _ F), Qc. rewrite form_plus_l, !form_plus_r, (Sf y x), !Y. assert (Z : dot n x (s_b b) = dot n (s_b b) x) by (unfold dot; apply sumn_ext; intros; ring). assert (Z' : dot n y (s_b b) = dot n (s_b b) y) by (unfold dot; apply sumn_ext; intros; ring). lra. }
  apply Rle_antisym.
  - assert (St : still_anchors (s_w s) (increments (s_w s) (fun i => - y i))) by (intros l k Hl; unfold increments, is_anchor; rewrite Hl; reflexivity).
    specialize (Lo _ St). rewrite K in Lo. replace (form n (s_L b) (fun i => - y i + y i) (fun i => - y i + y i)) with 0 in Lo; [lra|].
    symmetry. unfold form. apply sumn_zero; intros i _. apply sumn_zero; intros j _. ring.
  - rewrite <- Ed. rewrite <- (lin_cost_pack (s_w s) d Wf A), K. pose proof (ft_pos _ _ _ _ F (fun i => pack (ndim (s_w s)) (g_active (w_graph (s_w s))) d i + y i)). lra.
Qed.
Lemma least_exists s b M n C : wf (s_w s) -> fit s b M n -> inverse_of n (s_L b) C -> exists c, least_cost (s_w s) c.
Proof.
  intros Wf F I. set (y := fun i => sumn n (fun j => C i j * s_b b j)).
  assert (Y : forall x, form n (s_L b) x y = dot n x (s_b b)) by (intros x; apply inverse_form; auto).
  assert (Sf : forall x z, form n (s_L b) x z = form n (s_L b) z x).
  { intros x z. unfold form. rewrite sumn_swap. apply sumn_ext; intros i _. apply sumn_ext; intros j _. rewrite (ft_L _ _ _ _ F), (gram2_sym M (Amat b) (Wmat b) (fun p q _ _ => ft_sym _ _ _ _ F p q) j i). ring. }
  assert (K : forall x, lin_cost (s_w s) (increments (s_w s) x) = quad M (Wmat b) (s_r b) (s_r b) - dot n (s_b b) y + form n (s_L b) (fun i => x i + y i) (fun i => x i + y i)).
  { intros x. rewrite (ft_cost _ _ _ _ F). rewrite form_plus_l, !form_plus_r, (Sf y x), !Y. assert (Z : dot n x (s_b b) = dot n (s_b b) x) by (unfold dot; apply sumn_ext; intros; ring). assert (Z' : dot n y (s_b b) = dot n (s_b b) y) by (unfold dot; apply sumn_ext; intros; ring). lra. }
  exists (lin_cost (s_w s) (increments (s_w s) (fun i => - y i))). split.
  - exists (increments (s_w s) (fun i => - y i)). split; auto. intros l k Hl; unfold increments, is_anchor; rewrite Hl; reflexivity.
  - intros d A. rewrite <- (lin_cost_pack (s_w s) d Wf A), !K. replace (form n (s_L b) (fun i => - y i + y i) (fun i => - y i + y i)) with 0.
    + pose proof (ft_pos _ _ _ _ F (fun i => pack (ndim (s_w s)) (g_active (w_graph (s_w s))) d i + y i)). lra.
    + symmetry. unfold form. apply sumn_zero; intros i _. apply sumn_zero; intros j _. ring.
Qed.
