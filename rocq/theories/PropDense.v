(** C51, C52: the dense solver. *)
Require Import Reals List Arith Lia Lra.
From Verif Require Import Nodes Robust Graph GraphProofs Sums Solve SpecSolve SolveIndex SolveFrame SolveProofs Optimizer OptimizerProofs Dense SpecDense DenseProofs.
Import ListNotations.
Local Open Scope R_scope.

(** ** C51 *)
(** gradient and Hessian as bilinear forms: for all vectors x and y,
    x'g = sum_f k_f (J_f x)' W_f r_f with k_f the number of nodes of f, and
    x'Hy = sum_f (J_f x)' W_f (J_f y). *)
Theorem C51_gradient_hessian : forall w, dwf w -> exists w' g H,
  calculate_gradient_hessian dense w = Some (w', (g_stateDim (w_graph w), g, H)) /\ w_nodes w' = w_nodes w /\ w_graph w' = w_graph w /\
  (forall x, sumn (g_stateDim (w_graph w)) (fun i => x i * g i) =
     lsum (g_factors (w_graph w)) (fun f => INR (length (f_nodes (fa w f))) *
       quad (fdim w f) (f_info (fa w f)) (jac_times w f (dinc w x)) (res_at w f))) /\
  (forall x y, quad (g_stateDim (w_graph w)) H x y =
     lsum (g_factors (w_graph w)) (fun f => quad (fdim w f) (f_info (fa w f)) (jac_times w f (dinc w x)) (jac_times w f (dinc w y)))).
Proof.
  intros w W. destruct (dense_gh_spec w W) as (w' & g & H & E & K & N & G & Q). exists w', g, H.
  repeat split; auto. apply (sk_graph _ _ K).
Qed.
Print Assumptions C51_gradient_hessian.
(** with one-node factors only, the gradient is the one of the sum of squares *)
Theorem C51_one_node_gradient : forall w w' n g H, dwf w -> (forall f, In f (g_factors (w_graph w)) -> length (f_nodes (fa w f)) = 1%nat) ->
  calculate_gradient_hessian dense w = Some (w', (n, g, H)) -> forall x, sumn n (fun i => x i * g i) = slope w x.
Proof.
  intros w w' n g H W A E x. destruct (dense_gh_spec w W) as (w1 & g1 & H1 & E1 & _ & _ & G & _). cbn in E. rewrite E in E1. injection E1 as <- -> <- <-.
  fold (vdot (g_stateDim (w_graph w)) x g). rewrite G. apply lsum_ext. intros f If. unfold arity. rewrite (A f If). cbn. ring.
Qed.
Print Assumptions C51_one_node_gradient.
(** robust types and weights have no influence *)
Theorem C51_robust_ignored : forall w f t w1 n g H w2 n' g' H', dwf w ->
  let v := on_factor w f (fun x => mkFactor (f_id x) (f_dim x) (f_alldim x) (f_nodes x) (f_res x) (f_jac x) (f_info x) (f_r x) (f_J x) (f_chi2 x) t (f_weight x)) in
  calculate_gradient_hessian dense w = Some (w1, (n, g, H)) -> calculate_gradient_hessian dense v = Some (w2, (n', g', H')) ->
  n' = n /\ (forall i, (i < n)%nat -> g' i = g i) /\ (forall i j, (i < n)%nat -> (j < n)%nat -> H' i j = H i j).
Proof.
  intros w f t w1 n g H w2 n' g' H' W v E E'.
  assert (FA : forall l, f_dim (fa v l) = f_dim (fa w l) /\ f_nodes (fa v l) = f_nodes (fa w l) /\ f_res (fa v l) = f_res (fa w l) /\
     f_jac (fa v l) = f_jac (fa w l) /\ f_info (fa v l) = f_info (fa w l) /\ f_alldim (fa v l) = f_alldim (fa w l)).
  { intros l. unfold v. rewrite fa_on_factor. destruct (andb _ _); repeat split; reflexivity. }
  assert (Wv : dwf v).
  { destruct W as [A B C D F G I J K L]. constructor; auto.
    - intros l Il. cbn. rewrite upd_length. auto.
    - intros l m Il. destruct (FA l) as (_ & -> & _). apply G; auto.
    - intros l Il. destruct (FA l) as (_ & -> & _). apply I; auto.
    - intros l Il. destruct (FA l) as (_ & -> & _ & _ & _ & ->). apply J; auto.
    - intros l m Il. destruct (FA m) as (_ & -> & _). apply L; auto. }
  destruct (dense_gh_spec w W) as (a1 & b1 & c1 & E1 & _ & _ & G & Q). cbn in E. rewrite E in E1. injection E1 as <- -> <- <-.
  destruct (dense_gh_spec v Wv) as (a2 & b2 & c2 & E2 & _ & _ & G' & Q'). cbn in E'. rewrite E' in E2. injection E2 as <- -> <- <-.
  change (g_stateDim (w_graph w)) with (g_stateDim (w_graph v)) in *. set (N := g_stateDim (w_graph v)) in *.
  assert (JT : forall l x, jac_times v l (dinc v x) = jac_times w l (dinc w x) /\ res_at v l = res_at w l /\ fdim v l = fdim w l /\ f_info (fa v l) = f_info (fa w l) /\ arity v l = arity w l).
  { intros l x. destruct (FA l) as (X1 & X2 & X3 & X4 & X5 & X6). unfold jac_times, jac_at, res_at, fdim, arity, states_of. rewrite X1, X2, X3, X4, X5. repeat split. }
  split; auto. split.
  - intros i Hi. assert (X : vdot N (delta i) g' = vdot N (delta i) g).
    { rewrite G, G'. apply lsum_ext. intros l _. destruct (JT l (delta i)) as (-> & -> & -> & -> & ->). reflexivity. }
    unfold vdot in X. rewrite !(sumn_single N i) in X; auto; try (intros k _ Nk; unfold delta; destruct (Nat.eqb_spec i k); [congruence|ring]).
    unfold delta in X. rewrite Nat.eqb_refl in X. lra.
  - intros i j Hi Hj. rewrite <- (unit_form N H' i j), <- (unit_form N H i j) by auto. rewrite !form_quad, Q, Q'. apply lsum_ext. intros l _.
    destruct (JT l (fun k => if Nat.eqb k i then 1 else 0)) as (-> & _ & -> & -> & _). destruct (JT l (fun k => if Nat.eqb k j then 1 else 0)) as (-> & _). reflexivity.
Qed.
Print Assumptions C51_robust_ignored.

(** a graph: points p0 = (1,0) and p1 = (2,0), factors p0, p1 - (3,0) and p1 - p0 *)
Definition coord (v : nval) (i : nat) : R := match v with L2 a b => match i with O => a | _ => b end | _ => 0 end.
Definition at_ (vs : list nval) (k i : nat) : R := coord (nth k vs (L2 0 0)) i.
Definition chain (a b c d : R) : list gop :=
  [ONewNode STANDARD (L2 a b); ONewNode STANDARD (L2 c d); OAddNode 0; OAddNode 1;
   ONewFactor 2 2 [0%nat] (fun vs i => at_ vs 0 i) (fun _ l k => delta l k) delta QUADRATIC; OAddFactor 0;
   ONewFactor 2 2 [1%nat] (fun vs i => at_ vs 0 i - (if Nat.eqb i 0 then 3 else 0)) (fun _ l k => delta l k) delta QUADRATIC; OAddFactor 1;
   ONewFactor 2 4 [0%nat; 1%nat] (fun vs i => at_ vs 1 i - at_ vs 0 i) (fun _ l k => delta l (k - 2) * (if Nat.ltb k 2 then 0 else 1) - delta l k) delta QUADRATIC; OAddFactor 2].
Definition chain_world (a b c d : R) : world := match grun world_new (chain a b c d) with Some w => w | None => world_new end.
Ltac rcalc := cbv -[Rplus Rmult Ropp Rminus Rdiv Rinv IZR Rlt Rle sqrt].
Lemma chain_run a b c d : grun world_new (chain a b c d) = Some (chain_world a b c d).
Proof. reflexivity. Qed.
Lemma chain_dwf a b c d : dwf (chain_world a b c d).
Proof.
  eapply dense_reach; [apply chain_run | | | |].
  - repeat constructor.
  - cbn. repeat constructor; cbn; intuition discriminate.
  - cbn. repeat constructor; cbn; intuition discriminate.
  - intros f I. change (In f [0%nat; 1%nat; 2%nat]) in I.
    assert (N : f_nodes (fa (chain_world a b c d) f) = nth f [[0%nat]; [1%nat]; [0%nat; 1%nat]] []) by (destruct I as [<-|[<-|[<-|[]]]]; vm_compute; reflexivity).
    rewrite N. clear N. split; [|split].
    + destruct I as [<-|[<-|[<-|[]]]]; cbn; repeat constructor; cbn; intuition discriminate.
    + intros x Hx. cbn [added_nodes chain]. destruct I as [<-|[<-|[<-|[]]]]; cbn in *; intuition.
    + destruct I as [<-|[<-|[<-|[]]]]; vm_compute; reflexivity.
Qed.
Lemma chain_chi2 a b c d : chi2_of (chain_world a b c d) = 1 / 2 * (a * a + b * b) + (1 / 2 * ((c - 3) * (c - 3) + d * d) + 1 / 2 * ((c - a) * (c - a) + (d - b) * (d - b))).
Proof. rcalc. field. Qed.
Lemma chain_chi2_at w a b c d : skel (chain_world 1 0 2 0) w -> nst (n_data (nd w 0)) = L2 a b -> nst (n_data (nd w 1)) = L2 c d ->
  chi2_of w = 1 / 2 * (a * a + b * b) + (1 / 2 * ((c - 3) * (c - 3) + d * d) + 1 / 2 * ((c - a) * (c - a) + (d - b) * (d - b))).
Proof.
  intros K A B. unfold chi2_of. rewrite (sk_graph _ _ K). change (g_factors _) with [0%nat; 1%nat; 2%nat]. rewrite !lsum_cons, lsum_nil.
  unfold fchi2, fdim, res_at, states_of.
  destruct (sk_factor _ _ K 0%nat) as (-> & -> & -> & _ & -> & _). destruct (sk_factor _ _ K 1%nat) as (-> & -> & -> & _ & -> & _).
  destruct (sk_factor _ _ K 2%nat) as (-> & -> & -> & _ & -> & _).
  change (f_nodes (fa (chain_world 1 0 2 0) 0)) with [0%nat]. change (f_nodes (fa (chain_world 1 0 2 0) 1)) with [1%nat].
  change (f_nodes (fa (chain_world 1 0 2 0) 2)) with [0%nat; 1%nat]. cbn [map]. rewrite A, B. clear. rcalc. field.
Qed.
Example C51_example : dwf (chain_world 1 0 2 0). Proof. apply chain_dwf. Qed.
(** the gradient is not the one of the sum of squares *)
Theorem C51_gradient_refuted : exists ops w w' n g H x, grun world_new ops = Some w /\ dwf w /\
  calculate_gradient_hessian dense w = Some (w', (n, g, H)) /\ sumn n (fun i => x i * g i) <> slope w x.
Proof.
  exists (chain 1 0 2 0), (chain_world 1 0 2 0). destruct (dense_gh_spec _ (chain_dwf 1 0 2 0)) as (w' & g & H & E & _ & _ & G & _).
  exists w', (g_stateDim (w_graph (chain_world 1 0 2 0))), g, H, (delta 0). split; [reflexivity|]. split; [apply chain_dwf|]. split; [exact E|].
  specialize (G (delta 0)). unfold vdot in G. rewrite G. clear. rcalc. lra.
Qed.
Print Assumptions C51_gradient_refuted.
(** at the minimum of the sum of squares, a Newton-Raphson step with the exact
    inverse makes the error larger *)
Definition chain_inv : nat -> (nat -> nat -> R) -> nat -> nat -> R :=
  fun _ _ i j => if Nat.eqb i j then 2 / 3 else if Nat.eqb (i + 2) j then 1 / 3 else if Nat.eqb i (j + 2) then 1 / 3 else 0.
Theorem C51_optimum_refuted : exists inv w o', dwf w /\ (forall a b c d, chi2_of w <= chi2_of (chain_world a b c d)) /\ w = chain_world 1 0 2 0 /\
  one_iteration dense inv false (opt_new w 0 0) = Some o' /\ right_inverse (o_n o') (o_hess o') (inv (o_n o') (o_hess o')) /\
  chi2_of w < chi2_of (o_x o').
Proof.
  destruct (dense_gh_spec _ (chain_dwf 1 0 2 0)) as (w' & g & H & E & K & N & G & Q). set (w := chain_world 1 0 2 0) in *.
  change (g_stateDim (w_graph w)) with 4%nat in *.
  destruct (dense_update_spec (fun i => - sumn 4 (fun j => chain_inv 4 H i j * g j)) (g_nodes (w_graph w')) 0 w') as (w2 & E2 & K2 & _ & _ & _ & U).
  { eapply NoDup_map_inv'. apply (d_ids _ (dwf_skel _ _ K (chain_dwf 1 0 2 0))). } { apply (d_nodes _ (dwf_skel _ _ K (chain_dwf 1 0 2 0))). }
  { rewrite (d_state _ (dwf_skel _ _ K (chain_dwf 1 0 2 0))). lia. }
  rewrite (sk_graph _ _ K), (skel_ndim _ _ K) in U. change (g_nodes (w_graph w)) with [0%nat; 1%nat] in U.
  assert (NS : forall l, nd w' l = nd w l) by (intros; apply nd_same; auto).
  pose proof (U 0%nat 0%nat eq_refl) as U0. pose proof (U 1%nat 1%nat eq_refl) as U1. rewrite NS in U0, U1.
  change (nst (n_data (nd w 0))) with (L2 1 0) in U0. change (nst (n_data (nd w 1))) with (L2 2 0) in U1. cbn [val_update] in U0, U1.
  change (before (ndim w) [0%nat; 1%nat] 0) with 0%nat in U0. change (before (ndim w) [0%nat; 1%nat] 1) with 2%nat in U1. cbn [Nat.add] in U0, U1.
  assert (GV : g 0%nat = -1 /\ g 1%nat = 0 /\ g 2%nat = 1 /\ g 3%nat = 0).
  { assert (X : forall i, (i < 4)%nat -> g i = vdot 4 (delta i) g).
    { intros i Hi. unfold vdot. rewrite (sumn_single 4 i); auto. unfold delta. rewrite Nat.eqb_refl; ring. intros k _ Nk. unfold delta. destruct (Nat.eqb_spec i k); [congruence|ring]. }
    repeat split; (rewrite X by lia; rewrite G; clear; rcalc; lra). }
  destruct GV as (g0 & g1 & g2 & g3).
  exists chain_inv, w. eexists. split; [apply chain_dwf|]. split; [|split; [reflexivity|split; [|split]]].
  - intros a b c d. unfold w. rewrite !chain_chi2. pose proof (pow2_ge_0 (a - 1)). pose proof (pow2_ge_0 (c - 2)). pose proof (pow2_ge_0 (c - a - 1)). pose proof (pow2_ge_0 b). pose proof (pow2_ge_0 d). pose proof (pow2_ge_0 (d - b)). lra.
  - unfold one_iteration. cbn [calculate_gradient_hessian update_state dense opt_new o_x]. rewrite E. cbv zeta. unfold dense_update. 
    change (damp _ false _ H) with (fun i j => H i j). change (fun i j => H i j) with H. rewrite E2. reflexivity.
  - cbn [o_n o_hess opt_new o_method o_lambda]. intros i j Hi Hj.
    rewrite (sumn_ext 4 _ (fun k => quad 4 H (fun q => if Nat.eqb q i then 1 else 0) (fun q => if Nat.eqb q k then 1 else 0) * chain_inv 4 H k j)).
    2:{ intros k Hk. rewrite <- form_quad, unit_form by auto. reflexivity. }
    rewrite (sumn_ext 4 _ (fun k => lsum (g_factors (w_graph w)) (fun f => quad (fdim w f) (f_info (fa w f)) (jac_times w f (dinc w (fun q => if Nat.eqb q i then 1 else 0))) (jac_times w f (dinc w (fun q => if Nat.eqb q k then 1 else 0)))) * chain_inv 4 H k j)).
    2:{ intros k Hk. rewrite Q. reflexivity. }
    clear - Hi Hj. destruct i as [|[|[|[|]]]]; try lia; destruct j as [|[|[|[|]]]]; try lia; rcalc; lra.
  - cbn [o_x]. unfold w. rewrite chain_chi2. rewrite (chain_chi2_at w2 _ _ _ _ (skel_trans _ _ _ K K2) U0 U1).
    cbv [sumn chain_inv Nat.eqb Nat.add]. rewrite g0, g1, g2, g3. nra.
Qed.
Print Assumptions C51_optimum_refuted.

(** ** C52 *)
(** without anchors nothing is read or written out of range, whatever the numbers *)
Theorem C52_in_bounds : forall inv m max_iters lambda (o : opt world), dwf (o_x o) ->
  exists o' k, opt_solve dense inv m max_iters lambda o = Some (o', k) /\ dwf (o_x o').
Proof.
  intros inv m mx la o W. unfold opt_solve, opt_nr, opt_lm.
  assert (Q : forall o1 : opt world, dwf (o_x o1) -> (exists o' k, opt_nr dense inv o1 = Some (o', k) /\ dwf (o_x o')) /\ (exists o' k, opt_lm dense inv o1 = Some (o', k) /\ dwf (o_x o'))).
  { intros o1 W1. unfold opt_nr, opt_lm. destruct (tt_error _ _ dense_total _ W1) as (x & e & -> & Wx). split.
    - apply (nr_fuel dense inv dwf); auto using dense_total. cbn. lia.
    - apply (lm_fuel dense inv dwf); auto using dense_total. cbn. lia. }
  destruct m; apply Q; exact W.
Qed.
Print Assumptions C52_in_bounds.
(** graphs without anchors built through the API, each object added once, with
    Jacobians as wide as the neighbours, are such graphs *)
Theorem C52_programs : forall ops w, grun world_new ops = Some w ->
  Forall (fun o => match o with ORmFactor _ _ | OSetMode _ _ | OAddEigen _ => False | ONewNode m _ => m = STANDARD | _ => True end) ops ->
  NoDup (added_nodes ops) -> NoDup (added_factors ops) ->
  (forall f, In f (g_factors (w_graph w)) -> NoDup (f_nodes (fa w f)) /\ incl (f_nodes (fa w f)) (added_nodes ops) /\
     f_alldim (fa w f) = lsumn (map (fun l => n_dim (nd w l)) (f_nodes (fa w f)))) ->
  dwf w.
Proof. intros ops w H F. exact (dense_reach ops w H F). Qed.
Print Assumptions C52_programs.
Example C52_example : exists o' k, opt_solve dense (fun _ _ _ _ => 0) LM_SPHER 5 (1 / 100) (opt_new (chain_world 1 2 3 4) (1 / 10) 1) = Some (o', k).
Proof. destruct (C52_in_bounds (fun _ _ _ _ => 0) LM_SPHER 5 (1 / 100) (opt_new (chain_world 1 2 3 4) (1 / 10) 1) (chain_dwf 1 2 3 4)) as (o' & k & E & _). eauto. Qed.
(** with an anchored (or marginalised) node every solve goes out of range *)
Theorem C52_anchor_refuted : forall ops w l, grun world_new ops = Some w -> Forall no_mode_change ops ->
  In l (added_nodes ops) -> n_mode (nd w l) <> STANDARD ->
  forall inv m max_iters lambda o, o_x o = w -> opt_solve dense inv m max_iters lambda o = None.
Proof. intros ops w l H N I M inv m mx la o <-. apply dense_solve_oob. eapply anchor_oob; eauto. Qed.
Print Assumptions C52_anchor_refuted.
Example C52_anchor_example : exists w, grun world_new [ONewNode ANCHOR (L2 0 0); OAddNode 0] = Some w /\ n_mode (nd w 0) <> STANDARD.
Proof. eexists. split; [reflexivity|]. cbn. discriminate. Qed.
