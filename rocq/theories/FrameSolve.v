(** The solvers in two coordinate frames: a simulation (C79). *)
Require Import Reals List Arith Lia Lra Psatz Bool.
From Verif Require Import Lin SO3 AngleProofs Nodes NodesProofs Robust Graph GraphProofs Sums Solve SpecSolve SolveIndex SolveFrame SolveSums SolveBuild SolveProofs Session SessionProofs.
From Verif Require Import Factors SpecFactors FactorsDer FactorsPlanar FactorsSession SpecFrame FrameFactors.
Import ListNotations.
Local Open Scope R_scope.
Local Arguments nd : simpl never.
Local Arguments fa : simpl never.

(** ** equivalent linear systems *)
Definition same_below (n : nat) (x y : nat -> R) : Prop := forall i, (i < n)%nat -> x i = y i.
Lemma form_below n L x y x' y' : same_below n x x' -> same_below n y y' -> form n L x y = form n L x' y'.
Proof. intros A B. apply quad_ext; auto. Qed.
Lemma dot_below n x y x' y' : same_below n x x' -> same_below n y y' -> dot n x y = dot n x' y'.
Proof. intros A B. apply sumn_ext. intros i Hi. rewrite A, B; auto. Qed.
Lemma dot_comm n x y : dot n x y = dot n y x. Proof. apply sumn_ext. intros; ring. Qed.
Lemma form_rows n L x y : form n L x y = dot n x (fun i => sumn n (fun j => L i j * y j)).
Proof. unfold form, dot. apply sumn_ext. intros i Hi. rewrite sumn_mult_l. apply sumn_ext. intros; ring. Qed.
Definition unit (i : nat) : nat -> R := fun k => if Nat.eqb k i then 1 else 0.
Lemma dot_unit n i x : (i < n)%nat -> dot n (unit i) x = x i.
Proof.
  intros H. unfold dot, unit. rewrite (sumn_single n i); auto. rewrite Nat.eqb_refl. ring. intros k _ N. destruct (Nat.eqb_spec k i); [congruence|ring].
Qed.
Lemma rows_eq n L x y : (forall u, form n L u x = form n L u y) -> forall i, (i < n)%nat -> sumn n (fun j => L i j * x j) = sumn n (fun j => L i j * y j).
Proof. intros H i Hi. specialize (H (unit i)). rewrite !form_rows, !dot_unit in H by auto. exact H. Qed.
Lemma nonsingular_unique n L x y : nonsingular n L -> (forall i, (i < n)%nat -> sumn n (fun j => L i j * x j) = sumn n (fun j => L i j * y j)) -> same_below n x y.
Proof.
  intros N H i Hi. enough (x i - y i = 0) by lra. apply (N (fun k => x k - y k)); auto. intros k Hk.
  transitivity (sumn n (fun j => L k j * x j) - sumn n (fun j => L k j * y j)); [|rewrite (H k Hk); ring].
  unfold Rminus. rewrite <- sumn_opp, <- sumn_plus. apply sumn_ext. intros; ring.
Qed.
Section Equiv.
  Variables (n : nat) (L L' : nat -> nat -> R) (b b' : nat -> R) (D E : (nat -> R) -> nat -> R).
  Hypothesis DL : forall x y, form n L' (D x) (D y) = form n L x y.
  Hypothesis Db : forall x, dot n b' (D x) = dot n b x.
  Hypothesis DE : forall x, same_below n (D (E x)) x.
  Hypothesis Dext : forall x y, same_below n x y -> same_below n (D x) (D y).
  Hypothesis D0 : same_below n (D (fun _ => 0)) (fun _ => 0).
  Lemma equiv_form y x : form n L y (E x) = form n L' (D y) x.
  Proof using DL DE. rewrite <- DL. apply form_below; [intros i Hi; reflexivity|apply DE]. Qed.
  Lemma equiv_nonsingular : nonsingular n L -> nonsingular n L'.
  Proof using DL DE Dext D0.
    intros N x X i Hi.
    assert (Z : same_below n (E x) (fun _ => 0)).
    { intros k Hk. apply (N (E x)); auto. intros p Hp.
      transitivity (form n L (unit p) (E x)). { rewrite form_rows, dot_unit; auto. }
      rewrite equiv_form, form_rows. unfold dot. apply sumn_zero. intros q Hq. rewrite (X q Hq). ring. }
    rewrite <- (DE x i Hi). rewrite (Dext _ _ Z i Hi). apply D0; auto.
  Qed.
  Lemma equiv_solution dx dx' : nonsingular n L ->
    (forall i, (i < n)%nat -> sumn n (fun j => L i j * dx j) = b i) -> (forall i, (i < n)%nat -> sumn n (fun j => L' i j * dx' j) = b' i) -> same_below n dx' (D dx).
  Proof using DL Db DE Dext.
    intros N X X'.
    assert (Z : same_below n (E dx') dx).
    { apply (nonsingular_unique n L); auto. apply rows_eq. intros u. rewrite equiv_form, !form_rows.
      transitivity (dot n b' (D u)). { rewrite dot_comm. apply dot_below; [exact X'|intros i Hi; reflexivity]. }
      rewrite Db, dot_comm. apply dot_below; [intros i Hi; reflexivity|]. intros i Hi. symmetry. apply X; auto. }
    intros i Hi. rewrite <- (DE dx' i Hi). apply (Dext _ _ Z i Hi).
  Qed.
End Equiv.
Lemma damped_form n L la x y : form n (fun i j => L i j + if Nat.eqb i j then la else 0) x y = form n L x y + la * dot n x y.
Proof.
  unfold dot. rewrite sumn_mult_l. unfold form. rewrite <- sumn_plus. apply sumn_ext. intros i Hi.
  transitivity (sumn n (fun j => x i * L i j * y j + (if Nat.eqb i j then x i * la * y j else 0))). { apply sumn_ext. intros j _. destruct (Nat.eqb i j); ring. }
  rewrite sumn_plus. f_equal. rewrite (sumn_single n i); auto. rewrite Nat.eqb_refl. ring. intros k _ N. destruct (Nat.eqb_spec i k); [congruence|reflexivity].
Qed.
Lemma damped_nonsingular n L la : 0 < la -> (forall x, 0 <= form n L x x) -> nonsingular n (fun i j => L i j + if Nat.eqb i j then la else 0).
Proof.
  intros P Q x X i Hi.
  assert (F : form n (fun i j => L i j + if Nat.eqb i j then la else 0) x x = 0).
  { rewrite form_rows. unfold dot. apply sumn_zero. intros k Hk. rewrite (X k Hk). ring. }
  rewrite damped_form in F. specialize (Q x).
  assert (S : 0 <= dot n x x) by (apply sumn_nonneg; intros; nra).
  assert (Z : dot n x x = 0) by nra.
  assert (U : x i * x i <= dot n x x).
  { unfold dot. clear - Hi. induction n as [|m IH]; [lia|]. cbn. assert (0 <= sumn m (fun i => x i * x i)) by (apply sumn_nonneg; intros; nra). destruct (Nat.eq_dec i m) as [->|]; [lra|].
    assert (i < m)%nat as Hm by lia. specialize (IH Hm). nra. }
  nra.
Qed.
Lemma nonsingular_ext n L L' : (forall i j, (i < n)%nat -> (j < n)%nat -> L i j = L' i j) -> nonsingular n L -> nonsingular n L'.
Proof. intros H N x X. apply N. intros i Hi. rewrite <- (X i Hi). apply sumn_ext. intros j Hj. rewrite H; auto. Qed.

(** ** packed increments *)
Lemma pack_split (dim : loc -> nat) s : forall p, (p < lsumn (map dim s))%nat -> exists m l k, nth_error s m = Some l /\ (k < dim l)%nat /\ p = (before dim s m + k)%nat.
Proof.
  induction s as [|a s IH]; intros p H; cbn in H; [lia|]. destruct (Nat.lt_ge_cases p (dim a)) as [L|L].
  - exists 0%nat, a, p. repeat split; auto.
  - destruct (IH (p - dim a)%nat) as (m & l & k & A & B & C); [lia|]. exists (S m), l, k. repeat split; auto.
    pose proof (eq_refl : before dim (a :: s) (S m) = (dim a + before dim s m)%nat) as Q. lia.
Qed.
Lemma pack_dot (dim : loc -> nat) a b s : dot (lsumn (map dim s)) (pack dim s a) (pack dim s b) = lsum s (fun n => sumn (dim n) (fun k => a n k * b n k)).
Proof.
  induction s as [|c s IH]; [reflexivity|]. rewrite lsum_cons, <- IH. cbn [map lsumn]. unfold dot. rewrite sumn_app. f_equal.
  - apply sumn_ext. intros k Hk. cbn [pack]. apply Nat.ltb_lt in Hk. rewrite Hk. reflexivity.
  - apply sumn_ext. intros k Hk. cbn [pack]. destruct (Nat.ltb_spec (dim c + k) (dim c)); [lia|]. replace (dim c + k - dim c)%nat with k by lia. reflexivity.
Qed.
Lemma increments_at w x m l k : wf w -> nth_error (g_active (w_graph w)) m = Some l -> increments w x l k = x (col w m + k)%nat.
Proof.
  intros H M. unfold increments. destruct (wf_active _ H l (nth_error_In _ _ M)) as [_ A]. apply is_anchor_false in A. rewrite A, (index_of_unique l _ m); auto. apply wf_active_nodup; auto.
Qed.
Lemma pack_of_increments w x : wf w -> same_below (g_stateDim (w_graph w)) (pack (ndim w) (g_active (w_graph w)) (increments w x)) x.
Proof.
  intros H p Hp. rewrite (wf_state _ H) in Hp. destruct (pack_split _ _ _ Hp) as (m & l & k & M & K & ->). rewrite (pack_at _ _ _ m l k M K). apply increments_at; auto.
Qed.
Definition turn_all (g : frame) (w : world) (x : nat -> R) : nat -> R := pack (ndim w) (g_active (w_graph w)) (fun l => turn g (increments w x l)).
Definition back (g : frame) : frame := mkFrame (- fr_angle g) 0 0.
Lemma turn_back g d k : turn g (turn (back g) d) k = d k.
Proof.
  pose proof (cs1 (fr_angle g)) as C. unfold turn, back; cbn [fr_angle]. rewrite cos_neg, sin_neg. set (c := cos _) in *. set (s := sin _) in *. clearbody c s.
  destruct k as [|[|k]]; [| |reflexivity]; match goal with |- _ = ?r => transitivity ((c * c + s * s) * r); [ring|] end; replace (c * c + s * s) with 1 by lra; ring.
Qed.
Lemma turn_ext g d e n k : (2 <= n)%nat -> (k < n)%nat -> (forall i, (i < n)%nat -> d i = e i) -> turn g d k = turn g e k.
Proof. intros A B H. unfold turn. destruct k as [|[|k]]; rewrite ?(H 0%nat), ?(H 1%nat) by lia; auto. Qed.
Lemma turn_0 g k : turn g (fun _ => 0) k = 0.
Proof. unfold turn. destruct k as [|[|k]]; ring. Qed.
Lemma turn_dot g d e n : (2 <= n)%nat -> sumn n (fun k => turn g d k * turn g e k) = sumn n (fun k => d k * e k).
Proof.
  intros H. destruct n as [|[|n]]; [lia|lia|]. induction n as [|n IH]; [|change (sumn (S (S (S n))) ?f) with (sumn (S (S n)) f + f (S (S n))); rewrite IH by lia; reflexivity].
  cbn [sumn turn]. pose proof (cs1 (fr_angle g)). set (c := cos _) in *. set (s := sin _) in *. clearbody c s.
  transitivity ((c * c + s * s) * (d 0%nat * e 0%nat + d 1%nat * e 1%nat)); [ring|]. replace (c * c + s * s) with 1 by lra. ring.
Qed.
Definition planar (w : world) : Prop := forall l, In l (g_active (w_graph w)) -> (2 <= ndim w l)%nat.
Lemma turn_all_at g w x m l k : wf w -> nth_error (g_active (w_graph w)) m = Some l -> (k < ndim w l)%nat -> increments w (turn_all g w x) l k = turn g (increments w x l) k.
Proof. intros H M K. rewrite (increments_at w _ m l k H M). unfold turn_all, col. exact (pack_at (ndim w) (fun l => turn g (increments w x l)) _ m l k M K). Qed.
Lemma same_incr w x y : wf w -> (forall m l k, nth_error (g_active (w_graph w)) m = Some l -> (k < ndim w l)%nat -> increments w x l k = increments w y l k) -> same_below (g_stateDim (w_graph w)) x y.
Proof.
  intros H E p Hp. rewrite (wf_state _ H) in Hp. destruct (pack_split _ _ _ Hp) as (m & l & k & M & K & ->). specialize (E m l k M K). rewrite !(increments_at w _ m l k H M) in E. exact E.
Qed.
Lemma below_incr w x y m l k : wf w -> same_below (g_stateDim (w_graph w)) x y -> nth_error (g_active (w_graph w)) m = Some l -> (k < ndim w l)%nat -> increments w x l k = increments w y l k.
Proof.
  intros H E M K. rewrite !(increments_at w _ m l k H M). apply E. rewrite (wf_state _ H). unfold col.
  clear E. revert m M. induction (g_active (w_graph w)) as [|a s IH]; intros [|m] M; try discriminate.
  - cbn in M. injection M as ->. cbn. lia.
  - cbn in M. specialize (IH m M). cbn. unfold before in IH. cbn in *. lia.
Qed.
Lemma turn_all_ext g w x y : wf w -> planar w -> same_below (g_stateDim (w_graph w)) x y -> same_below (g_stateDim (w_graph w)) (turn_all g w x) (turn_all g w y).
Proof.
  intros H P E. apply same_incr; auto. intros m l k M K. rewrite !(turn_all_at g w _ m l k H M K). apply (turn_ext g _ _ (ndim w l)); auto. apply P. eapply nth_error_In; eauto.
  intros i Hi. apply (below_incr w x y m l i); auto.
Qed.
Lemma turn_all_back g w x : wf w -> planar w -> same_below (g_stateDim (w_graph w)) (turn_all g w (turn_all (back g) w x)) x.
Proof.
  intros H P. apply same_incr; auto. intros m l k M K. rewrite (turn_all_at g w _ m l k H M K). rewrite <- (turn_back g (increments w x l) k).
  apply (turn_ext g _ _ (ndim w l)); auto. apply P. eapply nth_error_In; eauto. intros i Hi. apply (turn_all_at (back g) w x m l i); auto.
Qed.
Lemma turn_all_0 g w : wf w -> same_below (g_stateDim (w_graph w)) (turn_all g w (fun _ => 0)) (fun _ => 0).
Proof.
  intros H. apply same_incr; auto. intros m l k M K. rewrite (turn_all_at g w _ m l k H M K). rewrite (increments_at w _ m l k H M).
  transitivity (turn g (fun _ => 0) k); [|apply turn_0]. unfold turn. rewrite !(increments_at w _ m l _ H M). destruct k as [|[|k]]; reflexivity.
Qed.
Lemma turn_all_dot g w x y : wf w -> planar w -> dot (g_stateDim (w_graph w)) (turn_all g w x) (turn_all g w y) = dot (g_stateDim (w_graph w)) x y.
Proof.
  intros H P. rewrite <- (dot_below _ _ _ _ _ (pack_of_increments w x H) (pack_of_increments w y H)). rewrite (wf_state _ H). unfold turn_all. rewrite !pack_dot.
  apply lsum_ext. intros l I. apply turn_dot. apply P; auto.
Qed.

(** ** the simulation *)
Record sim (sol : bool) (g : frame) (w w' : world) : Prop := {
  sm_graph : w_graph w' = w_graph w;
  sm_nlen : length (w_nodes w') = length (w_nodes w);
  sm_flen : length (w_factors w') = length (w_factors w);
  sm_node : forall l, (l < length (w_nodes w))%nat ->
    n_id (nd w' l) = n_id (nd w l) /\ n_dim (nd w' l) = n_dim (nd w l) /\ n_mode (nd w' l) = n_mode (nd w l) /\ n_factors (nd w' l) = n_factors (nd w l) /\
    moved g (nst (n_data (nd w l))) (nst (n_data (nd w' l))) /\ moved g (nax (n_data (nd w l))) (nax (n_data (nd w' l)));
  sm_fac : forall l, In l (g_factors (w_graph w)) ->
    f_dim (fa w' l) = f_dim (fa w l) /\ f_nodes (fa w' l) = f_nodes (fa w l) /\ f_rob (fa w' l) = f_rob (fa w l) /\
    f_weight (fa w' l) = f_weight (fa w l) /\ f_chi2 (fa w' l) = f_chi2 (fa w l) /\ (0 < f_dim (fa w l))%nat /\ (sol = true -> f_rob (fa w l) <> RANSAC) /\
    law sol g (map kind_of (states_of w (fa w l))) (f_dim (fa w l)) (f_res (fa w l)) (f_jac (fa w l)) (f_info (fa w l)) (f_res (fa w' l)) (f_jac (fa w' l)) (f_info (fa w' l)) }.

Lemma neigh_valid_g w l n : good w -> In l (g_factors (w_graph w)) -> In n (f_nodes (fa w l)) -> (n < length (w_nodes w))%nat.
Proof. intros G I J. pose proof (gd_neigh _ G l (wf_factors _ (gd_wf _ G) l I)) as F. rewrite Forall_forall in F. auto. Qed.
Lemma sim_states sol g w w' l : good w -> sim sol g w w' -> In l (g_factors (w_graph w)) -> Forall2 (moved g) (states_of w (fa w l)) (states_of w' (fa w' l)).
Proof.
  intros G S I. unfold states_of. destruct (sm_fac _ _ _ _ S l I) as (_ & -> & _). pose proof (fun n => neigh_valid_g w l n G I) as V.
  induction (f_nodes (fa w l)) as [|n ns IH]; cbn; constructor.
  - apply (sm_node _ _ _ _ S n). apply V; cbn; auto.
  - apply IH. intros m M. apply V; cbn; auto.
Qed.
Lemma sim_fchi2 sol g w w' l : good w -> sim sol g w w' -> In l (g_factors (w_graph w)) -> fchi2 w' l = fchi2 w l /\ weight_at w' l = weight_at w l.
Proof.
  intros G S I. pose proof (sim_states _ _ _ _ _ G S I) as M. destruct (sm_fac _ _ _ _ S l I) as (D & _ & Ro & We & _ & _ & _ & [Lw _]).
  assert (C : fchi2 w' l = fchi2 w l). { unfold fchi2, fdim, res_at. rewrite D. f_equal. apply (Lw _ _ eq_refl M). }
  split; auto. unfold weight_at. rewrite C, Ro, We. reflexivity.
Qed.
Lemma sim_chi2 sol g w w' : good w -> sim sol g w w' -> chi2_of w' = chi2_of w.
Proof. intros G S. unfold chi2_of. rewrite (sm_graph _ _ _ _ S). apply lsum_ext. intros l I. apply (sim_fchi2 sol g w w' l G S I). Qed.
Lemma sim_skel sol g w w' v v' : good w -> sim sol g w w' -> skel w v -> skel w' v' ->
  (forall l, (l < length (w_nodes w))%nat -> moved g (nst (n_data (nd v l))) (nst (n_data (nd v' l))) /\ moved g (nax (n_data (nd v l))) (nax (n_data (nd v' l))) /\
     kind_of (nst (n_data (nd v l))) = kind_of (nst (n_data (nd w l)))) ->
  (forall l, In l (g_factors (w_graph w)) -> f_chi2 (fa v' l) = f_chi2 (fa v l) /\ f_weight (fa v' l) = f_weight (fa v l)) -> sim sol g v v'.
Proof.
  intros G [S1 S2 S3 S4 S5] K K' M C. constructor.
  - rewrite (sk_graph _ _ K), (sk_graph _ _ K'). auto.
  - rewrite (sk_nlen _ _ K), (sk_nlen _ _ K'). auto.
  - rewrite (sk_flen _ _ K), (sk_flen _ _ K'). auto.
  - intros l Hl. rewrite (sk_nlen _ _ K) in Hl. destruct (S4 l Hl) as (A1 & A2 & A3 & A4 & _). destruct (sk_node _ _ K l) as (-> & -> & -> & ->). destruct (sk_node _ _ K' l) as (-> & -> & -> & ->).
    destruct (M l Hl) as (M1 & M2 & _). auto 8.
  - intros l I. rewrite (sk_graph _ _ K) in I. destruct (S5 l I) as (A1 & A2 & A3 & _ & _ & A6 & A7 & A8). destruct (C l I) as [C1 C2].
    destruct (sk_factor _ _ K l) as (E1 & E2 & E3 & E4 & E5 & E6 & _). destruct (sk_factor _ _ K' l) as (E1' & E2' & E3' & E4' & E5' & E6' & _).
    assert (KS : map kind_of (states_of v (fa v l)) = map kind_of (states_of w (fa w l))).
    { unfold states_of. rewrite E2, !map_map. apply map_ext_in. intros n J. apply M. eapply neigh_valid_g; eauto. }
    rewrite KS, E1, E2, E3, E4, E5, E6, E1', E2', E3', E4', E5', E6'. auto 12.
Qed.
Lemma sim_ndim sol g w w' l : sim sol g w w' -> (l < length (w_nodes w))%nat -> ndim w' l = ndim w l.
Proof. intros S H. apply (sm_node _ _ _ _ S l H). Qed.
Lemma sim_planar sol g w w' : good w -> sim sol g w w' -> planar w.
Proof.
  intros G S l I. destruct (wf_active _ (gd_wf _ G) l I) as [Hl _]. unfold ndim. destruct (gd_kind _ G l Hl) as [-> _]. destruct (sm_node _ _ _ _ S l Hl) as (_ & _ & _ & _ & M & _).
  destruct (nst (n_data (nd w l))); cbn in M; try contradiction; cbn; lia.
Qed.
Lemma sim_col sol g w w' m : good w -> sim sol g w w' -> col w' m = col w m.
Proof.
  intros G S. unfold col, before. rewrite (sm_graph _ _ _ _ S). f_equal. apply map_ext_in. intros l I. apply (sim_ndim sol g w w' l S). apply (wf_active _ (gd_wf _ G)).
  rewrite <- (firstn_skipn m (g_active (w_graph w))). apply in_app_iff. auto.
Qed.
Lemma sim_incr sol g w w' x l k : good w -> sim sol g w w' -> (l < length (w_nodes w))%nat -> increments w' x l k = increments w x l k.
Proof.
  intros G S Hl. unfold increments, is_anchor. destruct (sm_node _ _ _ _ S l Hl) as (_ & _ & -> & _). rewrite (sim_col sol g w w' _ G S), (sm_graph _ _ _ _ S). reflexivity.
Qed.

(** ** the linear systems *)
Lemma jac_dir_row (dim : loc -> nat) (st : loc -> nval) J i ns d : (forall n, In n ns -> dim n = nval_dim (st n)) -> forall off, jac_dir dim J i off ns d = row_dir (J i) off (map st ns) (map d ns).
Proof.
  induction ns as [|n ns IH]; intros H off; cbn; auto. rewrite (H n) by (cbn; auto). rewrite IH; auto. intros m M. apply H; cbn; auto.
Qed.
Lemma jac_times_row w l d i : good w -> In l (g_factors (w_graph w)) -> jac_times w l d i = jtimes (f_jac (fa w l)) (states_of w (fa w l)) (map d (f_nodes (fa w l))) i.
Proof.
  intros G I. unfold jac_times, jtimes, states_of, jac_at. apply (jac_dir_row (ndim w) (fun n => nst (n_data (nd w n)))). intros n N. unfold ndim. apply (gd_kind _ G). eapply neigh_valid_g; eauto.
Qed.
Lemma jac_times_turned sol g w w' l x i : good w -> good w' -> sim sol g w w' -> In l (g_factors (w_graph w)) ->
  jac_times w' l (increments w' (turn_all g w x)) i = jtimes (f_jac (fa w' l)) (states_of w' (fa w' l)) (map (turn g) (map (increments w x) (f_nodes (fa w l)))) i.
Proof.
  intros G G' S I. assert (I' : In l (g_factors (w_graph w'))) by (rewrite (sm_graph _ _ _ _ S); auto).
  rewrite map_map. destruct (sm_fac _ _ _ _ S l I) as (_ & EN & _). rewrite <- EN. rewrite <- (jac_times_row w' l (fun n => turn g (increments w x n)) i G' I').
  unfold jac_times. apply jac_dir_ext. intros n k N K. rewrite EN in N. pose proof (neigh_valid_g w l n G I N) as V. rewrite (sim_incr sol g w w' _ n k G S V).
  rewrite (sim_ndim sol g w w' n S V) in K. destruct (is_anchor (nd w n)) eqn:A.
  - transitivity (turn g (fun _ => 0) k). { rewrite turn_0. unfold increments. rewrite A. reflexivity. } unfold turn, increments. rewrite A. destruct k as [|[|k]]; reflexivity.
  - pose proof (wf_neigh' _ _ _ (gd_wf _ G) I N A) as Ia. destruct (In_nth_error _ _ Ia) as [m M]. apply (turn_all_at g w x m n k (gd_wf _ G) M K).
Qed.
Lemma sim_infos g w w' : sim true g w w' -> sym_infos w /\ psd_infos w /\ weights_nonneg w.
Proof.
  intros S. split; [|split].
  - intros l I. destruct (sm_fac _ _ _ _ S l I) as (_ & _ & _ & _ & _ & _ & _ & [_ P]). apply (P eq_refl).
  - intros l I. destruct (sm_fac _ _ _ _ S l I) as (_ & _ & _ & _ & _ & _ & _ & [_ P]). apply (P eq_refl).
  - apply no_ransac_nonneg. intros l I. apply (sm_fac _ _ _ _ S l I). reflexivity.
Qed.
Lemma sim_infos' g w w' : sim true g w w' -> sym_infos w' /\ psd_infos w' /\ weights_nonneg w'.
Proof.
  intros S. split; [|split].
  - intros l I. rewrite (sm_graph _ _ _ _ S) in I. destruct (sm_fac _ _ _ _ S l I) as (D & _ & _ & _ & _ & _ & _ & [_ P]). unfold fdim. rewrite D. apply (P eq_refl).
  - intros l I. rewrite (sm_graph _ _ _ _ S) in I. destruct (sm_fac _ _ _ _ S l I) as (D & _ & _ & _ & _ & _ & _ & [_ P]). unfold fdim. rewrite D. apply (P eq_refl).
  - apply no_ransac_nonneg. intros l I. rewrite (sm_graph _ _ _ _ S) in I. destruct (sm_fac _ _ _ _ S l I) as (_ & _ & -> & _ & _ & _ & R & _). apply R. reflexivity.
Qed.
Section Systems.
  Variables (g : frame) (s s' b b' : solver).
  Hypothesis G : good (s_w s).
  Hypothesis G' : good (s_w s').
  Hypothesis S : sim true g (s_w s) (s_w s').
  Hypothesis B : built s b.
  Hypothesis B' : built s' b'.
  Let n := g_stateDim (w_graph (s_w s)).
  Let D := turn_all g (s_w s).
  Lemma sys_form x y : form n (s_L (build_info_adjacency b')) (D x) (D y) = form n (s_L (build_info_adjacency b)) x y.
  Proof using G G' S B B'.
    assert (En : n = g_stateDim (w_graph (s_w s'))) by (unfold n; rewrite (sm_graph _ _ _ _ S); reflexivity). transitivity (form (g_stateDim (w_graph (s_w s'))) (s_L (build_info_adjacency b')) (D x) (D y)). { rewrite <- En. reflexivity. } unfold form.
    rewrite (normal_matrix s' b' (D x) (D y) (gd_wf _ G') B'). unfold n. rewrite (normal_matrix s b x y (gd_wf _ G) B). rewrite (sm_graph _ _ _ _ S). apply lsum_ext. intros l I.
    destruct (sim_infos g _ _ S) as [Y _]. destruct (sim_infos' g _ _ S) as [Y' _].
    rewrite !quad_sym by (first [apply Y; assumption | apply Y'; rewrite (sm_graph _ _ _ _ S); assumption]).
    destruct (sim_fchi2 _ _ _ _ l G S I) as [_ ->]. f_equal. pose proof (sim_states _ _ _ _ _ G S I) as M. destruct (sm_fac _ _ _ _ S l I) as (Ed & _ & _ & _ & _ & _ & _ & [Lw _]).
    unfold fdim. rewrite Ed. destruct (Lw _ _ eq_refl M) as [_ Q]. destruct (Q eq_refl (map (increments (s_w s) x) (f_nodes (fa (s_w s) l))) (map (increments (s_w s) y) (f_nodes (fa (s_w s) l)))) as [Q1 _].
    { unfold states_of. rewrite !map_length. reflexivity. } { unfold states_of. rewrite !map_length. reflexivity. }
    transitivity (quad (f_dim (fa (s_w s) l)) (f_info (fa (s_w s') l)) (jtimes (f_jac (fa (s_w s') l)) (states_of (s_w s') (fa (s_w s') l)) (map (turn g) (map (increments (s_w s) x) (f_nodes (fa (s_w s) l)))))
        (jtimes (f_jac (fa (s_w s') l)) (states_of (s_w s') (fa (s_w s') l)) (map (turn g) (map (increments (s_w s) y) (f_nodes (fa (s_w s) l)))))).
    { apply quad_ext; intros i _; apply (jac_times_turned true); auto. }
    rewrite Q1. apply quad_ext; intros i _; symmetry; apply jac_times_row; auto.
  Qed.
  Lemma sys_rhs x : dot n (s_b (build_info_adjacency b')) (D x) = dot n (s_b (build_info_adjacency b)) x.
  Proof using G G' S B B'.
    assert (En : n = g_stateDim (w_graph (s_w s'))) by (unfold n; rewrite (sm_graph _ _ _ _ S); reflexivity). transitivity (dot (g_stateDim (w_graph (s_w s'))) (s_b (build_info_adjacency b')) (D x)). { rewrite <- En. reflexivity. } unfold dot.
    rewrite (normal_rhs s' b' (D x) (gd_wf _ G') B'). unfold n. rewrite (normal_rhs s b x (gd_wf _ G) B). rewrite (sm_graph _ _ _ _ S). apply lsum_ext. intros l I.
    destruct (sim_infos g _ _ S) as [Y _]. destruct (sim_infos' g _ _ S) as [Y' _].
    rewrite !quad_sym by (first [apply Y; assumption | apply Y'; rewrite (sm_graph _ _ _ _ S); assumption]).
    destruct (sim_fchi2 _ _ _ _ l G S I) as [_ ->]. f_equal. pose proof (sim_states _ _ _ _ _ G S I) as M. destruct (sm_fac _ _ _ _ S l I) as (Ed & _ & _ & _ & _ & _ & _ & [Lw _]).
    unfold fdim. rewrite Ed. destruct (Lw _ _ eq_refl M) as [_ Q]. destruct (Q eq_refl (map (increments (s_w s) x) (f_nodes (fa (s_w s) l))) (map (increments (s_w s) x) (f_nodes (fa (s_w s) l)))) as [_ Q1].
    { unfold states_of. rewrite !map_length. reflexivity. } { unfold states_of. rewrite !map_length. reflexivity. }
    transitivity (quad (f_dim (fa (s_w s) l)) (f_info (fa (s_w s') l)) (jtimes (f_jac (fa (s_w s') l)) (states_of (s_w s') (fa (s_w s') l)) (map (turn g) (map (increments (s_w s) x) (f_nodes (fa (s_w s) l)))))
        (res_at (s_w s') l)).
    { apply quad_ext; intros i _; [apply (jac_times_turned true); auto | reflexivity]. }
    unfold res_at. rewrite Q1. apply quad_ext; intros i _; [symmetry; apply jac_times_row; auto | reflexivity].
  Qed.
End Systems.

(** ** the solvers *)
Lemma sim_kk sol g w w' v v' : good w -> sim sol g w w' -> skel w v -> skel w' v' -> kinds_kept w v ->
  (forall l, (l < length (w_nodes w))%nat -> moved g (nst (n_data (nd v l))) (nst (n_data (nd v' l))) /\ moved g (nax (n_data (nd v l))) (nax (n_data (nd v' l)))) ->
  (forall l, In l (g_factors (w_graph w)) -> f_chi2 (fa v' l) = f_chi2 (fa v l) /\ f_weight (fa v' l) = f_weight (fa v l)) -> sim sol g v v'.
Proof.
  intros G S K K' KK M C. apply (sim_skel sol g w w'); auto. intros l Hl. destruct (M l Hl) as [M1 M2]. split; auto. split; auto. symmetry. apply kind_same. apply KK; auto. apply (gd_kind _ G l Hl).
Qed.
Lemma sim_built g s s' b b' : good (s_w s) -> good (s_w s') -> sim true g (s_w s) (s_w s') -> built s b -> built s' b' -> sim true g (s_w b) (s_w b').
Proof.
  intros G G' S B B'. apply (sim_kk true g (s_w s) (s_w s')); auto. apply B. apply B'. { apply kk_refl. apply B. }
  - intros l Hl. rewrite (nd_same (s_w b) (s_w s)) by apply B. rewrite (nd_same (s_w b') (s_w s')) by apply B'. apply (sm_node _ _ _ _ S l Hl).
  - intros l I. assert (I' : In l (g_factors (w_graph (s_w s')))) by (rewrite (sm_graph _ _ _ _ S); auto). destruct (bt_fa _ _ B l I) as (-> & _ & _ & W). destruct (bt_fa _ _ B' l I') as (-> & _ & _ & W').
    destruct (sim_fchi2 _ _ _ _ l G S I) as [-> E]. split; auto. destruct (sm_fac _ _ _ _ S l I) as (Ed & _ & _ & _ & _ & P & _). rewrite W, W'; auto. unfold fdim. rewrite Ed. auto.
Qed.
Lemma gn_sim lin g (u : bool) s s' : exact lin -> good (s_w s) -> good (s_w s') -> sim true g (s_w s) (s_w s') -> s_lambda s' = s_lambda s -> s_tol s' = s_tol s ->
  (if u then 0 < s_lambda s else forall b, build_problem false s = Some b -> nonsingular (g_stateDim (w_graph (s_w s))) (s_L b)) ->
  exists s1 s1', optimize_gauss_newton lin u s = Some s1 /\ optimize_gauss_newton lin u s' = Some s1' /\ sim true g (s_w s1) (s_w s1') /\
    w_nodes (s_w s1) = w_nodes (s_w s) /\ skel (s_w s) (s_w s1) /\ good (s_w s1) /\ good (s_w s1') /\ s_lambda s1 = s_lambda s /\ s_tol s1 = s_tol s /\ s_lambda s1' = s_lambda s /\ s_tol s1' = s_tol s /\
    let n := g_stateDim (w_graph (s_w s)) in same_below n (s_dx s1') (turn_all g (s_w s) (s_dx s1)) /\
    dot n (s_dx s1') (s_b s1') = dot n (s_dx s1) (s_b s1) /\ form n (s_L s1') (s_dx s1') (s_dx s1') = form n (s_L s1) (s_dx s1) (s_dx s1).
Proof.
  intros X G G' S El Et H. destruct (gn_ok lin u s (gd_wf _ G)) as (s1 & b & Eb & B & E & Ew & Ebb & EL0 & EL1 & Edx & ELa & ETo).
  destruct (gn_ok lin u s' (gd_wf _ G')) as (s1' & b' & Eb' & B' & E' & Ew' & Ebb' & EL0' & EL1' & Edx' & ELa' & ETo').
  destruct (gn_frame _ _ _ _ E) as (K & N & _). destruct (gn_frame _ _ _ _ E') as (K' & N' & _).
  exists s1, s1'. split; auto. split; auto. split. { rewrite Ew, Ew'. apply (sim_built g s s'); auto. }
  split; auto. split; auto. split. { apply (good_kk (s_w s)); auto. apply kk_refl; auto. } split. { apply (good_kk (s_w s')); auto. apply kk_refl; auto. }
  split; auto. split; auto. split; [congruence|]. split; [congruence|]. intros n.
  pose proof (sim_planar _ _ _ _ G S) as P. pose proof (gd_wf _ G) as W.
  assert (En : g_stateDim (w_graph (s_w s')) = n) by (unfold n; rewrite (sm_graph _ _ _ _ S); reflexivity). rewrite En in *. fold n in EL1, Edx.
  pose proof (sys_form g s s' b b' G G' S B B') as DL0. pose proof (sys_rhs g s s' b b' G G' S B B') as Db. fold n in DL0, Db. rewrite <- Ebb, <- Ebb' in Db.
  assert (LF : exists la, (u = true -> la = s_lambda s) /\ (u = false -> la = 0) /\ (forall x y, form n (s_L s1) x y = form n (s_L (build_info_adjacency b)) x y + la * dot n x y) /\
                          (forall x y, form n (s_L s1') x y = form n (s_L (build_info_adjacency b')) x y + la * dot n x y)).
  { destruct u.
    - exists (s_lambda s). split; auto. split; [discriminate|]. rewrite El in EL1'. split; intros x y; rewrite <- damped_form; apply form_ext; intros i j Hi _; [apply EL1; auto | apply EL1'; auto].
    - exists 0. split; [discriminate|]. split; auto. rewrite (EL0 eq_refl), (EL0' eq_refl). split; intros; ring. }
  destruct LF as (la & La1 & La0 & LF & LF').
  assert (DL : forall x y, form n (s_L s1') (turn_all g (s_w s) x) (turn_all g (s_w s) y) = form n (s_L s1) x y).
  { intros x y. rewrite LF, LF', DL0. unfold n. rewrite (turn_all_dot g (s_w s) x y W P). reflexivity. }
  assert (NS : nonsingular n (s_L s1)).
  { destruct u.
    - destruct (sim_infos _ _ _ S) as (I1 & I2 & I3). apply (nonsingular_ext n (fun i j => s_L (build_info_adjacency b) i j + if Nat.eqb i j then s_lambda s else 0)).
      + intros i j Hi _. symmetry. apply EL1; auto.
      + apply damped_nonsingular; auto. intros x. apply (form_psd s b x W B I1 I2 I3).
    - rewrite (EL0 eq_refl). apply (H (build_info_adjacency b)). unfold build_problem. rewrite Eb. reflexivity. }
  set (D := turn_all g (s_w s)) in *. set (F := turn_all (back g) (s_w s)).
  assert (DE : forall x, same_below n (D (F x)) x) by (intros x; apply turn_all_back; auto).
  assert (Dext : forall x y, same_below n x y -> same_below n (D x) (D y)) by (intros x y; apply turn_all_ext; auto).
  assert (D0 : same_below n (D (fun _ => 0)) (fun _ => 0)) by (apply turn_all_0; auto).
  pose proof (equiv_nonsingular n (s_L s1) (s_L s1') D F DL DE Dext D0 NS) as NS'.
  assert (Sol : forall i, (i < n)%nat -> sumn n (fun j => s_L s1 i j * s_dx s1 j) = s_b s1 i) by (intros i Hi; rewrite Edx; apply (X n); auto).
  assert (Sol' : forall i, (i < n)%nat -> sumn n (fun j => s_L s1' i j * s_dx s1' j) = s_b s1' i) by (intros i Hi; rewrite Edx'; apply (X n); auto).
  pose proof (equiv_solution n (s_L s1) (s_L s1') (s_b s1) (s_b s1') D F DL Db DE Dext (s_dx s1) (s_dx s1') NS Sol Sol') as DX.
  split; auto. split.
  - rewrite dot_comm, (dot_below n _ _ (s_b s1') (D (s_dx s1)) (fun i _ => eq_refl) DX), Db. apply dot_comm.
  - rewrite (form_below n _ _ _ _ _ DX DX). apply DL.
Qed.
Lemma sim_update g w w' dx dx' : good w -> good w' -> sim true g w w' -> same_below (g_stateDim (w_graph w)) dx' (turn_all g w dx) -> sim true g (update_nodes_w w dx) (update_nodes_w w' dx').
Proof.
  intros G G' S DX. destruct (update_nodes_spec w dx) as (K & F & A & O & _). destruct (update_nodes_spec w' dx') as (K' & F' & A' & O' & _).
  apply (sim_kk true g w w'); auto. { apply kk_update. }
  - intros l Hl. destruct (sm_node _ _ _ _ S l Hl) as (_ & _ & _ & _ & M1 & M2). rewrite A, A'. split; auto.
    destruct (in_dec Nat.eq_dec l (g_active (w_graph w))) as [I|I].
    + destruct (In_nth_error _ _ I) as [m Hm]. assert (Hm' : nth_error (g_active (w_graph w')) m = Some l) by (rewrite (sm_graph _ _ _ _ S); auto).
      rewrite (gn_updates w dx m l (gd_wf _ G) Hm), (gn_updates w' dx' m l (gd_wf _ G') Hm'). cbn [nst].
      set (d := fun k => increments w (fun i => - dx i) l k).
      rewrite (val_update_ext (nst (n_data (nd w' l))) _ (turn g d)). { apply update_moved. exact M1. }
      intros k Hk. rewrite (moved_dim _ _ _ M1) in Hk. rewrite <- (proj1 (gd_kind _ G l Hl)) in Hk. fold (ndim w l) in Hk.
      rewrite (sim_incr true g w w' _ l k G S Hl). unfold d.
      rewrite (increments_at w _ m l k (gd_wf _ G) Hm). rewrite <- (increments_at w dx' m l k (gd_wf _ G) Hm).
      rewrite (below_incr w dx' _ m l k (gd_wf _ G) DX Hm Hk). rewrite (turn_all_at g w dx m l k (gd_wf _ G) Hm Hk).
      unfold turn. rewrite !(increments_at w _ m l _ (gd_wf _ G) Hm). destruct k as [|[|k]]; ring.
    + rewrite O by auto. rewrite O' by (rewrite (sm_graph _ _ _ _ S); auto). exact M1.
  - intros l I. unfold fa. rewrite F, F'. fold (fa w l) (fa w' l). destruct (sm_fac _ _ _ _ S l I) as (_ & _ & _ & -> & -> & _). auto.
Qed.
Lemma sim_sync_aux g w w' : good w -> sim true g w w' -> sim true g (sync_aux w) (sync_aux w').
Proof.
  intros G S. destruct (sync_aux_spec w) as (K & F & N). destruct (sync_aux_spec w') as (K' & F' & N'). apply (sim_kk true g w w'); auto. { apply kk_aux. }
  - intros l Hl. rewrite N, N', (sm_graph _ _ _ _ S), (sm_nlen _ _ _ _ S). destruct (sm_node _ _ _ _ S l Hl) as (_ & _ & _ & _ & M1 & M2). destruct (andb _ _); auto.
    cbn. split; auto. apply set_moved; auto.
  - intros l I. unfold fa. rewrite F, F'. fold (fa w l) (fa w' l). destruct (sm_fac _ _ _ _ S l I) as (_ & _ & _ & -> & -> & _). auto.
Qed.
Lemma sim_sync_state g w w' : good w -> sim true g w w' -> sim true g (sync_state w) (sync_state w').
Proof.
  intros G S. destruct (sync_state_spec w) as (K & F & N). destruct (sync_state_spec w') as (K' & F' & N'). apply (sim_kk true g w w'); auto. { apply kk_state. }
  - intros l Hl. rewrite N, N', (sm_graph _ _ _ _ S), (sm_nlen _ _ _ _ S). destruct (sm_node _ _ _ _ S l Hl) as (_ & _ & _ & _ & M1 & M2). destruct (andb _ _); auto.
    cbn. split; auto. apply set_moved; auto.
  - intros l I. unfold fa. rewrite F, F'. fold (fa w l) (fa w' l). destruct (sm_fac _ _ _ _ S l I) as (_ & _ & _ & -> & -> & _). auto.
Qed.
Lemma sim_chi2_call sol g w w' flag : good w -> good w' -> sim sol g w w' -> sim sol g (fst (chi2 flag w)) (fst (chi2 flag w')) /\ snd (chi2 flag w') = snd (chi2 flag w).
Proof.
  intros G G' S. destruct flag.
  - pose proof (wf_factors _ (gd_wf _ G)) as V. pose proof (wf_factors _ (gd_wf _ G')) as V'. rewrite (chi2_true w V), (chi2_true w' V'). cbn [fst snd]. split; [|apply (sim_chi2 sol g); auto].
    destruct (chi2_world_spec w) as (N & _ & _ & D). destruct (chi2_world_spec w') as (N' & _ & _ & D'). pose proof (skel_chi2 w) as K. pose proof (skel_chi2 w') as K'. cbv zeta in *.
    set (v := fold_left _ _ w) in *. set (v' := fold_left _ _ w') in *. apply (sim_kk sol g w w'); auto. { apply kk_refl; auto. }
    + intros l Hl. rewrite (nd_same v w), (nd_same v' w') by auto. apply (sm_node _ _ _ _ S l Hl).
    + intros l I. rewrite D, D', (sm_graph _ _ _ _ S), (sm_flen _ _ _ _ S). pose proof (V l I) as Hl. pose proof (proj2 (mem_In _ _) I) as Im. apply Nat.ltb_lt in Hl. rewrite Im, Hl. cbn [andb].
      change (f_chi2 (chi2G w (fa w l))) with (fchi2 w l). change (f_chi2 (chi2G w' (fa w' l))) with (fchi2 w' l). destruct (sim_fchi2 _ _ _ _ l G S I) as [-> _]. split; auto. apply (sm_fac _ _ _ _ S l I).
  - rewrite !chi2_false. cbn [fst snd]. split; auto. rewrite (sm_graph _ _ _ _ S). apply lsum_ext. intros l I. apply (sm_fac _ _ _ _ S l I).
Qed.
Record ssim (g : frame) (s s' : solver) : Prop := {
  ss_good : good (s_w s); ss_good' : good (s_w s'); ss_sim : sim true g (s_w s) (s_w s'); ss_lambda : s_lambda s' = s_lambda s; ss_tol : s_tol s' = s_tol s }.
Lemma form_dot n L x : dot n x (fun i => sumn n (fun j => L i j * x j)) = form n L x x.
Proof. symmetry. apply form_rows. Qed.
Lemma lm_iter_sim lin g s s' : exact lin -> ssim g s s' -> 0 < s_lambda s ->
  exists s1 s1' e, lm_iter lin s = Some (s1, e) /\ lm_iter lin s' = Some (s1', e) /\ ssim g s1 s1' /\ 0 < s_lambda s1.
Proof.
  intros X [G G' S El Et] P. destruct (gn_sim lin g true s s' X G G' S El Et P) as (s1 & s1' & E & E' & S1 & N1 & K1 & G1 & G1' & La & To & La' & To' & DX & Db & DF). cbv zeta in *.
  unfold lm_iter. rewrite E, E'. rewrite !chi2_false. cbn [with_world s_w update_nodes].
  pose proof (sim_sync_aux g _ _ G1 S1) as S2.
  assert (G2 : good (sync_aux (s_w s1))) by (apply (good_kk (s_w s1)); auto; [apply sync_aux_spec | apply kk_aux]).
  assert (G2' : good (sync_aux (s_w s1'))) by (apply (good_kk (s_w s1')); auto; [apply sync_aux_spec | apply kk_aux]).
  destruct (sync_aux_spec (s_w s1)) as (K2 & _). set (w2 := sync_aux (s_w s1)) in *. set (w2' := sync_aux (s_w s1')) in *.
  change (s_dx (with_world s1 w2)) with (s_dx s1). change (s_dx (with_world s1' w2')) with (s_dx s1').
  assert (K12 : skel (s_w s) w2) by (eapply skel_trans; eauto).
  assert (TA : turn_all g w2 (s_dx s1) = turn_all g (s_w s) (s_dx s1)).
  { unfold turn_all. rewrite (sk_graph _ _ K12). assert (Q : ndim w2 = ndim (s_w s)) by (apply FunctionalExtensionality.functional_extensionality; intros l; apply (sk_node _ _ K12 l)). rewrite Q.
    f_equal. apply FunctionalExtensionality.functional_extensionality. intros l. f_equal. unfold increments, is_anchor, col. rewrite (sk_graph _ _ K12), Q. destruct (sk_node _ _ K12 l) as (_ & _ & -> & _). reflexivity. }
  assert (S3 : sim true g (update_nodes_w w2 (s_dx s1)) (update_nodes_w w2' (s_dx s1'))).
  { apply sim_update; auto. rewrite TA, (sk_graph _ _ K12). exact DX. }
  assert (G3 : good (update_nodes_w w2 (s_dx s1))) by (apply (good_kk w2); auto; [apply update_nodes_spec | apply kk_update]).
  assert (G3' : good (update_nodes_w w2' (s_dx s1'))) by (apply (good_kk w2'); auto; [apply update_nodes_spec | apply kk_update]).
  destruct (update_nodes_spec w2 (s_dx s1)) as (K3 & _). set (w3 := update_nodes_w w2 (s_dx s1)) in *. set (w3' := update_nodes_w w2' (s_dx s1')) in *.
  destruct (sim_chi2_call true g w3 w3' true G3 G3' S3) as [S4 C4].
  pose proof (good_chi2 (with_world s w3) true G3) as G4. pose proof (good_chi2 (with_world s w3') true G3') as G4'. cbn [with_world s_w] in G4, G4'. destruct (chi2_fst w3 true) as [K4 _].
  destruct (chi2 true w3) as [w4 c4] eqn:Q4. destruct (chi2 true w3') as [w4' c4'] eqn:Q4'. cbn [fst snd] in *. subst c4'.
  assert (C1 : lsum (g_factors (w_graph (s_w s1'))) (fun l => f_chi2 (fa (s_w s1') l)) = lsum (g_factors (w_graph (s_w s1))) (fun l => f_chi2 (fa (s_w s1) l))).
  { rewrite (sm_graph _ _ _ _ S1). apply lsum_ext. intros l I. apply (sm_fac _ _ _ _ S1 l I). }
  rewrite C1. set (delta := _ - c4). cbv zeta; cbn [update_nodes with_world with_lambda s_w s_tol s_lambda s_dx s_b s_L]. rewrite La, La', To, To'.
  assert (N4 : g_stateDim (w_graph w4) = g_stateDim (w_graph (s_w s))) by (rewrite (sk_graph _ _ K4), (sk_graph _ _ K3), (sk_graph _ _ K12); reflexivity).
  rewrite (sm_graph _ _ _ _ S4), N4. rewrite !form_dot, Db, DF.
  assert (SS : good (sync_state w4) /\ good (sync_state w4') /\ sim true g (sync_state w4) (sync_state w4')).
  { split; [|split]. apply (good_kk w4); auto; [apply sync_state_spec | apply kk_state]. apply (good_kk w4'); auto; [apply sync_state_spec | apply kk_state]. apply sim_sync_state; auto. }
  destruct SS as (G5 & G5' & S5).
  destruct (Rltb delta 0); [|destruct (Rltb delta (s_tol s))]; do 3 eexists; (split; [reflexivity|]); (split; [reflexivity|]); (split; [constructor; cbn; auto; congruence|]); cbn; rewrite ?La; try lra.
  apply lambda_pos; auto.
Qed.
Lemma lm_loop_sim lin g maxIters fuel : exact lin -> forall iter s s', ssim g s s' -> 0 < s_lambda s ->
  match lm_loop lin fuel iter maxIters s, lm_loop lin fuel iter maxIters s' with
  | Some (s1, k), Some (s1', k') => ssim g s1 s1' /\ k' = k
  | None, None => True
  | _, _ => False
  end.
Proof.
  intros X. induction fuel as [|fuel IH]; intros iter s s' S P; cbn [lm_loop]; auto.
  destruct (lm_iter_sim lin g s s' X S P) as (s1 & s1' & e & -> & -> & S1 & P1). destruct e; auto; destruct (Nat.ltb _ _); auto; apply IH; auto.
Qed.
Lemma problem_params la tol s b : wf (s_w s) -> build_problem false (with_tol (with_lambda s la) tol) = Some b -> exists b0, build_problem false s = Some b0 /\ s_L b = s_L b0.
Proof.
  intros W Q. destruct (build_wf s W) as (b0 & Eb0 & _). destruct (build_wf (with_tol (with_lambda s la) tol) W) as (b1 & Eb1 & _).
  exists (build_info_adjacency b0). unfold build_problem in *. rewrite Eb0. split; [reflexivity|]. rewrite Eb1 in Q. injection Q as <-. clear - Eb0 Eb1.
  unfold build_adjacency in Eb0, Eb1. cbn [with_tol with_lambda s_w s_r] in Eb1.
  destruct (index_nodes (s_w s)) as [mm N]. destruct (negb _); [discriminate|]. destruct (sp_insert_all _ _ _ _); [|discriminate]. destruct (sp_insert_all _ _ _ _); [|discriminate].
  injection Eb0 as <-. injection Eb1 as <-. reflexivity.
Qed.
(** what the Gauss-Newton step does, in terms of the factors *)
Definition gn_form (w : world) (y d : vec) : R :=
  lsum (g_factors (w_graph w)) (fun l => weight_at w l * quad (fdim w l) (upper_sym (f_info (fa w l))) (jac_times w l (increments w y)) (jac_times w l (increments w d))).
Definition gn_rhs (w : world) (y : vec) : R :=
  lsum (g_factors (w_graph w)) (fun l => weight_at w l * quad (fdim w l) (upper_sym (f_info (fa w l))) (jac_times w l (increments w y)) (res_at w l)).
Lemma gn_regular s b : wf (s_w s) -> (forall x, gn_form (s_w s) x x = 0 -> forall i, (i < g_stateDim (w_graph (s_w s)))%nat -> x i = 0) ->
  build_problem false s = Some b -> nonsingular (g_stateDim (w_graph (s_w s))) (s_L b).
Proof.
  intros W H Q. destruct (build_wf s W) as (b0 & Eb0 & B). unfold build_problem in Q. rewrite Eb0 in Q. injection Q as <-.
  intros x Hx. apply H. unfold gn_form. rewrite <- (normal_matrix s b0 x x W B). fold (form (g_stateDim (w_graph (s_w s))) (s_L (build_info_adjacency b0)) x x).
  rewrite form_rows. unfold dot. apply sumn_zero. intros i Hi. rewrite Hx by auto. ring.
Qed.
Lemma gn_step lin k la tol s s' : wf (s_w s) -> exact lin -> (forall b, build_problem false s = Some b -> nonsingular (g_stateDim (w_graph (s_w s))) (s_L b)) ->
  solve lin GN k la tol s = Some s' -> w_graph (s_w s') = w_graph (s_w s) /\ (forall l, ~ In l (g_active (w_graph (s_w s))) -> nst (n_data (nd (s_w s') l)) = nst (n_data (nd (s_w s) l))) /\
    exists dx, (forall y, gn_rhs (s_w s) y = gn_form (s_w s) y dx) /\
    forall m l, nth_error (g_active (w_graph (s_w s))) m = Some l -> nst (n_data (nd (s_w s') l)) = val_update (nst (n_data (nd (s_w s) l))) (fun k => increments (s_w s) (fun i => - dx i) l k).
Proof.
  intros W X NS E. unfold solve in E. set (t := with_tol (with_lambda s la) tol) in *. destruct (gn_ok lin false t W) as (s1 & b & Eb & B & E1 & Ew & Ebb & EL & _ & Edx & _).
  rewrite E1 in E. cbn [option_map] in E. injection E as <-. specialize (EL eq_refl). destruct (gn_frame _ _ _ _ E1) as (K & N & _). change (s_w t) with (s_w s) in K, N.
  destruct (update_nodes_spec (s_w s1) (s_dx s1)) as (K2 & _ & _ & O & _).
  split. { unfold update_nodes; cbn [with_world s_w]. rewrite (sk_graph _ _ K2). apply (sk_graph _ _ K). }
  split. { intros l Hl. unfold update_nodes; cbn [with_world s_w]. rewrite O by (rewrite (sk_graph _ _ K); auto). rewrite (nd_same (s_w s1) (s_w s) l N). reflexivity. }
  exists (s_dx s1). split.
  - intros y. unfold gn_rhs, gn_form. change (s_w s) with (s_w t) in W |- *. rewrite <- (normal_rhs t b y W B), <- (normal_matrix t b y (s_dx s1) W B). cbv zeta. rewrite <- EL, <- Ebb.
    apply form_solution. intros i Hi. rewrite Edx. apply (X (g_stateDim (w_graph (s_w t)))); auto.
    assert (Q : build_problem false t = Some (build_info_adjacency b)) by (unfold build_problem; rewrite Eb; reflexivity).
    destruct (problem_params la tol s _ W Q) as (b0 & Q0 & QL). rewrite EL, QL. apply (NS b0 Q0).
  - intros m l Hm. assert (W1 : wf (s_w s1)) by (apply (skel_wf (s_w s)); auto). pose proof (gn_updates (s_w s1) (s_dx s1) m l W1) as U. rewrite (sk_graph _ _ K) in U. specialize (U Hm).
    unfold update_nodes; cbn [with_world s_w]. rewrite U. cbn [nst]. rewrite (nd_same (s_w s1) (s_w s) l N). f_equal.
    apply FunctionalExtensionality.functional_extensionality. intros j. unfold increments, is_anchor, col. rewrite (sk_graph _ _ K), (nd_same (s_w s1) (s_w s) l N).
    assert (Qd : ndim (s_w s1) = ndim (s_w s)) by (apply FunctionalExtensionality.functional_extensionality; intros q; apply (sk_node _ _ K q)). rewrite Qd. reflexivity.
Qed.
Lemma solve_sim lin g m k la tol s s' : exact lin -> good (s_w s) -> good (s_w s') -> sim true g (s_w s) (s_w s') ->
  (m = GN -> forall b, build_problem false s = Some b -> nonsingular (g_stateDim (w_graph (s_w s))) (s_L b)) ->
  exists s1 s1', solve lin m k la tol s = Some s1 /\ solve lin m k la tol s' = Some s1' /\ ssim g s1 s1'.
Proof.
  intros X G G' SM H. destruct (good_solve lin m k la tol s G) as (s1 & E1 & _). destruct (good_solve lin m k la tol s' G') as (s1' & E1' & _).
  exists s1, s1'. split; auto. split; auto. unfold solve in E1, E1'. destruct m.
  - set (t := with_tol (with_lambda s la) tol) in *. set (t' := with_tol (with_lambda s' la) tol) in *.
    assert (NS : forall b, build_problem false t = Some b -> nonsingular (g_stateDim (w_graph (s_w t))) (s_L b)).
    { intros b Q. destruct (problem_params la tol s b (gd_wf _ G) Q) as (b0 & Q0 & ->). exact (H eq_refl b0 Q0). }
    destruct (gn_sim lin g false t t' X G G' SM eq_refl eq_refl NS) as (u & u' & E & E' & S1 & N1 & K1 & G1 & G1' & La & To & La' & To' & DX & _). cbv zeta in DX.
    rewrite E in E1. rewrite E' in E1'. cbn [option_map] in E1, E1'. injection E1 as <-. injection E1' as <-. unfold update_nodes.
    assert (TA : turn_all g (s_w u) (s_dx u) = turn_all g (s_w t) (s_dx u)).
    { unfold turn_all. rewrite (sk_graph _ _ K1). assert (Q : ndim (s_w u) = ndim (s_w t)) by (apply FunctionalExtensionality.functional_extensionality; intros l; apply (sk_node _ _ K1 l)). rewrite Q.
      f_equal. apply FunctionalExtensionality.functional_extensionality. intros l. f_equal. unfold increments, is_anchor, col. rewrite (sk_graph _ _ K1), Q. destruct (sk_node _ _ K1 l) as (_ & _ & -> & _). reflexivity. }
    constructor; cbn [with_world s_w s_lambda s_tol]; [| | |congruence|congruence].
    + apply (good_kk (s_w u)); auto; [apply update_nodes_spec | apply kk_update].
    + apply (good_kk (s_w u')); auto; [apply update_nodes_spec | apply kk_update].
    + apply sim_update; auto. rewrite TA, (sk_graph _ _ K1). exact DX.
  - unfold optimize_levenberg_marquardt in E1, E1'. set (t := with_lambda (with_tol (with_lambda s la) tol) (1 / 100000)) in *. set (t' := with_lambda (with_tol (with_lambda s' la) tol) (1 / 100000)) in *.
    assert (S0 : ssim g t t') by (constructor; auto; reflexivity). assert (P0 : 0 < s_lambda t) by (cbn; lra).
    pose proof (lm_loop_sim lin g k (Datatypes.S k) X 0 t t' S0 P0) as Q. destruct (lm_loop lin (Datatypes.S k) 0 k t) as [[u q]|]; [|discriminate]. destruct (lm_loop lin (Datatypes.S k) 0 k t') as [[u' q']|]; [|discriminate].
    cbn [option_map fst] in E1, E1'. injection E1 as <-. injection E1' as <-. apply Q.
Qed.
