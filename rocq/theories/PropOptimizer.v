(** C53, C54: the generic optimizer. *)
Require Import Reals List Arith Lia Lra.
From Verif Require Import SO3 Nodes Robust Graph GraphProofs Sums Solve SpecSolve SolveFrame Optimizer OptimizerProofs Dense SpecDense DenseProofs PropDense.
Import ListNotations.
Local Open Scope R_scope.

(** ** C53 *)
(** [cost x] is the error of state x. Updates, gradients and error evaluations
    do not disturb the bookkept state, restoring it gives its error back
    (lawful); errors are numbers (nan_free). *)
Theorem C53_lm_never_worse : forall X (P : problem X) (I : X -> Prop) (cost : X -> option R), lawful P I cost -> nan_free I cost ->
  forall inv m max_iters lambda o o' k, m <> NEWTON_RAPHSON -> I (o_x o) ->
  opt_solve P inv m max_iters lambda o = Some (o', k) ->
  I (o_x o') /\ exists e e', cost (o_x o) = Some e /\ cost (o_x o') = Some e' /\ e' <= e.
Proof.
  intros X P I cost L NF inv m mx la o o' k M HI H. unfold opt_solve in H. destruct m; [congruence| |];
  (apply (lm_cost P inv I cost L NF) in H; [|exact HI]; destruct H as [H1 (a & b & A & B & C)]; split; [exact H1|exists b, a; repeat split; auto]).
Qed.
Print Assumptions C53_lm_never_worse.
(** the dense solver is such a problem: LM never increases the sum of squares *)
Theorem C53_dense : forall inv m max_iters lambda (o o' : opt world) k, m <> NEWTON_RAPHSON ->
  valid_factors (o_x o) -> dstates (o_x o) -> opt_solve dense inv m max_iters lambda o = Some (o', k) ->
  chi2_of (o_x o') <= chi2_of (o_x o).
Proof.
  intros inv m mx la o o' k M V D H.
  destruct (C53_lm_never_worse _ _ _ _ dense_lawful ltac:(intros w _; discriminate) inv m mx la o o' k M (conj V D) H) as (_ & a & b & A & B & C).
  injection A as <-. injection B as <-. exact C.
Qed.
Print Assumptions C53_dense.
Example C53_example : valid_factors (chain_world 1 2 3 4) /\ dstates (chain_world 1 2 3 4).
Proof.
  split; [apply dwf_valid, chain_dwf|]. left. intros l I. change (In l [0%nat; 1%nat]) in I. destruct I as [<-|[<-|[]]]; reflexivity.
Qed.
(** a step whose error is NaN is kept *)
Theorem C53_nan_refuted : exists (P : problem (bool * bool)) (cost : bool * bool -> option R) inv o o' k,
  lawful P (fun _ => True) cost /\ cost (o_x o) = Some 1 /\ opt_solve P inv LM_SPHER 5 (1 / 100) o = Some (o', k) /\ cost (o_x o') = None.
Proof.
  (* a state and its bookkept copy; true has error NaN; every step goes there *)
  set (cost := fun x : bool * bool => if fst x then None else Some 1).
  exists (mkProblem (fun x => Some (x, cost x)) (fun x => Some (x, (0%nat, fun _ => 0, fun _ _ => 0)))
            (fun _ x => Some (true, snd x)) (fun x => (fst x, fst x)) (fun x => (snd x, snd x))), cost, (fun _ _ _ _ => 0), (opt_new (false, false) 0 0).
  eexists. eexists. split; [|split; [reflexivity|split]].
  - constructor; cbn.
    + intros x x' e _ H. injection H as <- <-. auto.
    + intros x x' q _ H. injection H as <- _. auto.
    + intros dx x x' _ H. injection H as <-. auto.
    + intros x _. split; auto.
    + intros x _. split; auto.
  - cbv -[Rplus Rmult Ropp Rminus Rdiv Rinv IZR Rlt_dec Req_EM_T]. reflexivity.
  - reflexivity.
Qed.
Print Assumptions C53_nan_refuted.

(** ** C54 *)
(** Newton-Raphson: k iterations with errors cs after them, 1 <= k <=
    max(1, max_iters), every change but the last is above the tolerance, and
    below max_iters the last one is not *)
Theorem C54_newton_raphson : forall X (P : problem X) inv max_iters lambda o o' k,
  opt_solve P inv NEWTON_RAPHSON max_iters lambda o = Some (o', k) ->
  exists o0 e0 cs, calculate_error P (o_x o) = Some (o_x o0, e0) /\ newton P inv cs o0 o' /\ length cs = k /\ (1 <= k <= Nat.max 1 max_iters)%nat /\
    (forall j, (S j < k)%nat -> moved (o_tol o) (nth j (e0 :: cs) None) (nth (S j) (e0 :: cs) None)) /\
    ((k < max_iters)%nat -> ~ moved (o_tol o) (nth (k - 1) (e0 :: cs) None) (nth k (e0 :: cs) None)).
Proof.
  intros X P inv mx la o o' k H. unfold opt_solve, opt_nr in H. cbn [o_x] in H. destruct (calculate_error P (o_x o)) as [[x e]|] eqn:E; [|discriminate].
  pose proof (nr_count P inv _ _ _ _ _ _ H) as C. destruct (nr_trace P inv _ _ _ _ _ _ H) as (cs & N & K & NE & A & B). cbn [o_max with_x o_tol] in *.
  rewrite Nat.add_0_l in K. subst k. match type of N with newton _ _ _ ?q _ => exists q, e, cs end. split; [reflexivity|]. split; [exact N|]. repeat split; auto; lia.
Qed.
Print Assumptions C54_newton_raphson.
(** Levenberg-Marquardt: k passes; only the last can be the converged one; with
    fewer than max_iters passes it is *)
Theorem C54_levenberg_marquardt : forall X (P : problem X) inv m max_iters lambda o o' k, m <> NEWTON_RAPHSON ->
  opt_solve P inv m max_iters lambda o = Some (o', k) -> (1 <= k <= Nat.max 1 max_iters)%nat /\
  exists o0 e0 es e p1 o1, calculate_error P (o_x o) = Some (o_x o0, e0) /\ o_lambda o0 = lambda /\ o_method o0 = m /\
    passes P inv (es ++ [e]) e0 o0 p1 o1 /\ length (es ++ [e]) = k /\ Forall (fun e => e <> OConverged) es /\
    ((k < max_iters)%nat -> e = OConverged) /\ (e = OConverged -> o' = o1).
Proof.
  intros X P inv m mx la o o' k M H. unfold opt_solve, opt_lm in H. destruct m; [congruence| |]; cbn [o_x] in H;
  (destruct (calculate_error P (o_x o)) as [[x e]|] eqn:E; [|discriminate]);
  pose proof (lm_count P inv _ _ _ _ _ _ H) as C; destruct (lm_trace P inv _ _ _ _ _ _ H) as (es & e1 & p1 & o1 & Ps & K & F & D); cbn [o_max with_x] in C, D;
  (split; [lia|]); (match type of Ps with passes _ _ _ _ ?q _ _ => exists q, e, es, e1, p1, o1 end); (split; [|split; [|split; [|split; [exact Ps|split; [rewrite app_length; cbn; lia|split; [exact F|]]]]]]; try reflexivity);
  (split; [intros L; destruct D as [[D _]|[_ [D _]]]; [auto|lia] | intros Q; destruct D as [[_ D]|[D _]]; [auto|congruence]]).
Qed.
Print Assumptions C54_levenberg_marquardt.
(** one pass: rejected and restored iff the error grew, converged iff it decreased
    by less than the tolerance; the damping doubles or is divided by 4 *)
Theorem C54_lm_pass : forall X (P : problem X) inv p o o' prev' e, lm_pass P inv (Some p) o = Some (o', prev', e) ->
  exists o1 x2 cur, one_iteration P inv true (with_x o (bookkeep_state P (o_x o))) = Some o1 /\ calculate_error P (o_x o1) = Some (x2, cur) /\
  forall c, cur = Some c ->
    (c > p -> e = ORejected /\ prev' = Some p /\ o_x o' = update_state_from_bookkeep P x2 /\ o_lambda o' = 2 * o_lambda o) /\
    (c <= p -> p - c < o_tol o -> e = OConverged /\ prev' = Some c /\ o_x o' = x2 /\ o_lambda o' = o_lambda o) /\
    (c <= p -> o_tol o <= p - c -> e = OAccepted /\ prev' = Some c /\ o_x o' = x2 /\
       (let den := - sumn (o_n o1) (fun i => o_dx o1 i * o_grad o1 i) - 1 / 2 * quad (o_n o1) (o_hess o1) (o_dx o1) (o_dx o1) in den <> 0 ->
        ((p - c) / den < 1 / 4 -> o_lambda o' = 2 * o_lambda o) /\ (1 / 4 <= (p - c) / den <= 8 / 10 -> o_lambda o' = o_lambda o) /\
        (8 / 10 < (p - c) / den -> o_lambda o' = o_lambda o / 4))).
Proof.
  intros X P inv p o o' prev' e H. destruct (lm_pass_spec P inv p o o' prev' e H) as (o1 & x2 & cur & A & B & C). exists o1, x2, cur. split; auto. split; auto.
  intros c Ec. destruct (C c Ec) as (C1 & C2 & C3). split; [exact C1|]. split; [exact C2|]. intros L1 L2. destruct (C3 L1 L2) as (D1 & D2 & D3 & D4).
  repeat split; auto; intros Hq;
  (replace (quad (o_n o1) (o_hess o1) (o_dx o1) (o_dx o1)) with (vdot (o_n o1) (o_dx o1) (fun i => sumn (o_n o1) (fun j => o_hess o1 i j * o_dx o1 j))) in * by
    (unfold vdot, quad; apply sumn_ext; intros i _; rewrite sumn_mult_l; apply sumn_ext; intros; ring));
  apply D4; assumption.
Qed.
Print Assumptions C54_lm_pass.
(** the step: with an exact inverse, (H + damping) dx = - gradient *)
Theorem C54_step : forall X (P : problem X) inv b o o', one_iteration P inv b o = Some o' ->
  exists x1 H, calculate_gradient_hessian P (o_x o) = Some (x1, (o_n o', o_grad o', H)) /\ update_state P (o_dx o') x1 = Some (o_x o') /\
    (forall i j, o_hess o' i j = H i j + (if b then match o_method o with NEWTON_RAPHSON => 0 | LM_SPHER => o_lambda o * delta i j | LM_ELLIP => o_lambda o * delta i j * H i i end else 0)) /\
    (right_inverse (o_n o') (o_hess o') (inv (o_n o') (o_hess o')) ->
     forall i, (i < o_n o')%nat -> sumn (o_n o') (fun j => o_hess o' i j * o_dx o' j) = - o_grad o' i).
Proof. intros X P inv b o o'. apply one_iteration_spec. Qed.
Print Assumptions C54_step.
(** the optimizer itself adds no undefined behaviour: it finishes whenever the problem's methods do *)
Theorem C54_total : forall X (P : problem X) (I : X -> Prop), total P I -> forall inv m max_iters lambda o, I (o_x o) ->
  exists o' k, opt_solve P inv m max_iters lambda o = Some (o', k) /\ I (o_x o').
Proof.
  intros X P I T inv m mx la o HI.
  assert (Q : forall o1 : opt X, I (o_x o1) -> (exists o' k, opt_nr P inv o1 = Some (o', k) /\ I (o_x o')) /\ (exists o' k, opt_lm P inv o1 = Some (o', k) /\ I (o_x o'))).
  { intros o1 W1. unfold opt_nr, opt_lm. destruct (tt_error _ _ T _ W1) as (x & e & -> & Wx). split.
    - apply (nr_fuel P inv I); auto. cbn. lia.
    - apply (lm_fuel P inv I); auto. cbn. lia. }
  unfold opt_solve. destruct m; apply Q; exact HI.
Qed.
Print Assumptions C54_total.
(** with max_iters = 0 an iteration is made all the same *)
Theorem C54_zero_iterations_refuted : exists (P : problem nat) inv o o' k,
  opt_solve P inv NEWTON_RAPHSON 0 0 o = Some (o', k) /\ k = 1%nat /\ o_x o' <> o_x o.
Proof.
  exists (mkProblem (fun x => Some (x, Some (INR x))) (fun x => Some (x, (0%nat, fun _ => 0, fun _ _ => 0))) (fun _ x => Some (S x)) (fun x => x) (fun x => x)),
    (fun _ _ _ _ => 0), (opt_new 0%nat 0 0).
  eexists. eexists. split; [|split; [reflexivity|]].
  - unfold opt_solve, opt_nr. cbn [calculate_error o_x o_max]. cbn [nr_loop one_iteration calculate_gradient_hessian update_state o_x calculate_error with_x o_max o_tol opt_new].
    change (Nat.ltb 1 0) with false. rewrite Bool.andb_false_r. reflexivity.
  - cbn. discriminate.
Qed.
Print Assumptions C54_zero_iterations_refuted.
Example C54_example : exists o' k, opt_solve dense (fun _ _ _ _ => 0) LM_ELLIP 3 1 (opt_new (chain_world 1 2 3 4) (1 / 10) 1) = Some (o', k) /\ dwf (o_x o').
Proof. apply C54_total; [apply dense_total|apply chain_dwf]. Qed.
