(** Specification and proofs for Optimizer.v. *)
Require Import Reals List Arith Bool Lia Lra.
From Verif Require Import SO3 Sums Optimizer.
Import ListNotations.
Local Open Scope R_scope.

(** [cost x] is the error at x: what the five methods of a well-behaved problem
    do to it and to the error at the bookkept state, as long as [I] holds *)
Record lawful {X} (P : problem X) (I : X -> Prop) (cost : X -> option R) : Prop := {
  lw_error : forall x x' e, I x -> calculate_error P x = Some (x', e) -> I x' /\ e = cost x /\ cost x' = cost x /\
     cost (update_state_from_bookkeep P x') = cost (update_state_from_bookkeep P x);
  lw_gh : forall x x' q, I x -> calculate_gradient_hessian P x = Some (x', q) -> I x' /\
     cost (update_state_from_bookkeep P x') = cost (update_state_from_bookkeep P x);
  lw_update : forall dx x x', I x -> update_state P dx x = Some x' -> I x' /\
     cost (update_state_from_bookkeep P x') = cost (update_state_from_bookkeep P x);
  lw_book : forall x, I x -> I (bookkeep_state P x) /\ cost (update_state_from_bookkeep P (bookkeep_state P x)) = cost x;
  lw_restore : forall x, I x -> I (update_state_from_bookkeep P x) /\
     cost (update_state_from_bookkeep P (update_state_from_bookkeep P x)) = cost (update_state_from_bookkeep P x) }.
Definition nan_free {X} (I : X -> Prop) (cost : X -> option R) : Prop := forall x, I x -> cost x <> None.
(** a <= b for errors that are numbers *)
Definition not_worse (a b : option R) : Prop := exists x y, a = Some x /\ b = Some y /\ x <= y.
Lemma not_worse_trans a b c : not_worse a b -> not_worse b c -> not_worse a c.
Proof. intros (x & y & -> & -> & L) (y' & z & E & -> & L'). injection E as <-. exists x, z. repeat split; auto. lra. Qed.

(** [passes P inv es prev o prev' o']: LM passes from o to o' with outcomes es *)
Inductive passes {X} (P : problem X) inv : list outcome -> option R -> opt X -> option R -> opt X -> Prop :=
| passes_nil p o : passes P inv [] p o p o
| passes_cons p o p1 o1 e es p2 o2 : lm_pass P inv p o = Some (o1, p1, e) -> passes P inv es p1 o1 p2 o2 -> passes P inv (e :: es) p o p2 o2.

Lemma Rltb_true a b : Rltb a b = true -> a < b. Proof. unfold Rltb. destruct (Rlt_dec a b); [auto|discriminate]. Qed.
Lemma Rltb_false a b : Rltb a b = false -> b <= a. Proof. unfold Rltb. destruct (Rlt_dec a b); [discriminate|lra]. Qed.

Section LM.
Context {X : Type} (P : problem X) (inv : nat -> (nat -> nat -> R) -> nat -> nat -> R) (I : X -> Prop) (cost : X -> option R).
Hypothesis L : lawful P I cost.
Hypothesis NF : nan_free I cost.
Notation rs := (update_state_from_bookkeep P).

Lemma one_iteration_saved b o o' : I (o_x o) -> one_iteration P inv b o = Some o' -> I (o_x o') /\ cost (rs (o_x o')) = cost (rs (o_x o)).
Proof.
  intros HI. unfold one_iteration. destruct (calculate_gradient_hessian P (o_x o)) as [[x1 [[n g] H]]|] eqn:E; [|discriminate].
  destruct (update_state P _ x1) as [x2|] eqn:U; [|discriminate]. intros Q. injection Q as <-. cbn.
  destruct (lw_gh _ _ _ L _ _ _ HI E) as [I1 E1]. destruct (lw_update _ _ _ L _ _ _ I1 U) as [I2 E2]. split; auto. congruence.
Qed.
Lemma pass_cost prev o o' prev' e : I (o_x o) -> prev = cost (o_x o) -> lm_pass P inv prev o = Some (o', prev', e) ->
  I (o_x o') /\ prev' = cost (o_x o') /\ not_worse (cost (o_x o')) (cost (o_x o)) /\ (e = ORejected -> cost (rs (o_x o')) = cost (o_x o')).
Proof.
  intros HI Hp H. unfold lm_pass in H. destruct (one_iteration P inv true _) as [o1|] eqn:IT; [|discriminate].
  destruct (lw_book _ _ _ L (o_x o) HI) as [BI BS].
  apply one_iteration_saved in IT; [|exact BI]. cbn [o_x with_x] in IT. rewrite BS in IT. destruct IT as [I1 S1].
  destruct (calculate_error P (o_x o1)) as [[x2 cur]|] eqn:E; [|discriminate].
  destruct (lw_error _ _ _ L _ _ _ I1 E) as (I2 & Ec & Ex & Es). subst cur.
  assert (NW : not_worse (cost (o_x o)) (cost (o_x o))).
  { destruct (cost (o_x o)) eqn:Q; [|destruct (NF _ HI Q)]. exists r, r. repeat split; auto. lra. }
  cbn [o_tol with_x] in H.
  destruct (decide prev (cost (o_x o1)) (o_tol o1)) eqn:D; injection H as <- <- <-; cbn [o_x with_x with_lam].
  - destruct (lw_restore _ _ _ L x2 I2) as [R1 R2]. rewrite R2, Es, S1. repeat split; auto.
  - split; auto. split; [auto|]. split; [|discriminate]. rewrite Ex. unfold decide in D. subst prev.
    destruct (cost (o_x o)) as [p|]; [|discriminate]. destruct (cost (o_x o1)) as [c|]; [|discriminate].
    destruct (Rltb (p - c) 0) eqn:Q; [discriminate|]. apply Rltb_false in Q. exists c, p. repeat split; auto. lra.
  - split; auto. split; [auto|]. split; [|discriminate]. rewrite Ex. unfold decide in D. subst prev.
    destruct (cost (o_x o)) as [p|] eqn:E1; [|destruct (NF _ HI E1)]. destruct (cost (o_x o1)) as [c|] eqn:E2; [|destruct (NF _ I1 E2)].
    destruct (Rltb (p - c) 0) eqn:Q; [discriminate|]. apply Rltb_false in Q. exists c, p. repeat split; auto. lra.
Qed.
Lemma steps_cost fuel : forall iters prev o o' k, I (o_x o) -> prev = cost (o_x o) -> lm_steps P inv fuel iters prev o = Some (o', k) ->
  I (o_x o') /\ not_worse (cost (o_x o')) (cost (o_x o)).
Proof.
  induction fuel as [|fuel IH]; intros iters prev o o' k HI Hp H; [discriminate|]. cbn [lm_steps] in H.
  destruct (lm_pass P inv prev o) as [[[o1 prev1] e]|] eqn:Q; [|discriminate].
  destruct (pass_cost _ _ _ _ _ HI Hp Q) as (I1 & A & B & C).
  assert (REC : lm_steps P inv fuel (S iters) prev1 o1 = Some (o', k) -> I (o_x o') /\ not_worse (cost (o_x o')) (cost (o_x o))).
  { intros H1. destruct (IH _ _ _ _ _ I1 A H1). split; auto. eapply not_worse_trans; eauto. }
  assert (END : forall o2 x3 d, I (o_x o2) -> cost (o_x o2) = cost (o_x o1) -> calculate_error P (o_x o2) = Some (x3, d) -> I x3 /\ not_worse (cost x3) (cost (o_x o))).
  { intros o2 x3 d I2 E1 E2. destruct (lw_error _ _ _ L _ _ _ I2 E2) as (I3 & _ & -> & _). rewrite E1. split; auto. }
  destruct e.
  - destruct (Nat.ltb (S iters) (o_max o1)); auto.
    destruct (calculate_error P _) as [[x3 d]|] eqn:E; [|discriminate]. injection H as <- <-. cbn [o_x with_x].
    eapply END; [| |exact E]; cbn [o_x with_x]; [apply (lw_restore _ _ _ L); auto | apply C; auto].
  - injection H as <- <-. auto.
  - destruct (Nat.ltb (S iters) (o_max o1)); auto.
    destruct (calculate_error P _) as [[x3 d]|] eqn:E; [|discriminate]. injection H as <- <-. cbn [o_x with_x].
    eapply END; [| |exact E]; auto.
Qed.
Lemma lm_cost o o' k : I (o_x o) -> opt_lm P inv o = Some (o', k) -> I (o_x o') /\ not_worse (cost (o_x o')) (cost (o_x o)).
Proof.
  intros HI. unfold opt_lm. destruct (calculate_error P (o_x o)) as [[x e]|] eqn:E; [|discriminate].
  destruct (lw_error _ _ _ L _ _ _ HI E) as (I1 & -> & Ex & _). intros H. rewrite <- Ex. eapply (steps_cost _ _ _ (with_x o x)); [| |exact H]; cbn; auto.
Qed.
End LM.

(** no method of the problem reaches undefined behaviour from a state satisfying I *)
Record total {X} (P : problem X) (I : X -> Prop) : Prop := {
  tt_error : forall x, I x -> exists x' e, calculate_error P x = Some (x', e) /\ I x';
  tt_gh : forall x, I x -> exists x' n g H, calculate_gradient_hessian P x = Some (x', (n, g, H)) /\ I x' /\
     forall dx, exists x'', update_state P dx x' = Some x'' /\ I x'';
  tt_book : forall x, I x -> I (bookkeep_state P x);
  tt_restore : forall x, I x -> I (update_state_from_bookkeep P x) }.

Section Loops.
Context {X : Type} (P : problem X) (inv : nat -> (nat -> nat -> R) -> nat -> nat -> R).

Lemma one_iteration_frame b o o' : one_iteration P inv b o = Some o' -> o_max o' = o_max o /\ o_tol o' = o_tol o /\ o_lambda o' = o_lambda o /\ o_method o' = o_method o.
Proof.
  unfold one_iteration. destruct (calculate_gradient_hessian P (o_x o)) as [[x1 [[n g] H]]|] eqn:E; [|discriminate].
  destruct (update_state P _ x1) as [x2|] eqn:U; [|discriminate]. intros Q. injection Q as <-. auto.
Qed.
Lemma one_iteration_total (I : X -> Prop) b o : I (o_x o) -> total P I -> exists o', one_iteration P inv b o = Some o' /\ I (o_x o').
Proof.
  intros HI T. unfold one_iteration. destruct (tt_gh _ _ T _ HI) as (x1 & n & g & H & E & _ & U). rewrite E.
  destruct (U (fun i => - sumn n (fun j => inv n (damp (o_method o) b (o_lambda o) H) i j * g j))) as (x2 & E2 & I2). cbv zeta. rewrite E2. eauto.
Qed.
Lemma pass_frame prev o o' prev' e : lm_pass P inv prev o = Some (o', prev', e) -> o_max o' = o_max o /\ o_tol o' = o_tol o /\ o_method o' = o_method o.
Proof.
  unfold lm_pass. destruct (one_iteration P inv true _) as [o1|] eqn:I; [|discriminate]. apply one_iteration_frame in I. cbn in I.
  destruct (calculate_error P (o_x o1)) as [[x2 cur]|]; [|discriminate].
  destruct (decide _ _ _); intros Q; injection Q as <- <- <-; cbn; tauto.
Qed.
(** NR *)
Lemma nr_count fuel : forall iters prev o o' k, nr_loop P inv fuel iters prev o = Some (o', k) ->
  (iters < k <= Nat.max (S iters) (o_max o))%nat.
Proof.
  induction fuel as [|fuel IH]; intros iters prev o o' k H; [discriminate|]. cbn [nr_loop] in H.
  destruct (one_iteration P inv false o) as [o1|] eqn:I; [|discriminate]. apply one_iteration_frame in I. destruct I as (I & _).
  destruct (calculate_error P (o_x o1)) as [[x2 cur]|]; [|discriminate]. cbn [o_tol o_max with_x] in H.
  destruct (andb _ _) eqn:B.
  - apply IH in H. cbn [o_max with_x] in H. apply andb_true_iff in B. destruct B as [_ B]. apply Nat.ltb_lt in B. lia.
  - injection H as <- <-. lia.
Qed.
(** the pass before the last one of NR: what it saw *)
Lemma nr_stop fuel : forall iters prev o o' k, nr_loop P inv fuel iters prev o = Some (o', k) -> (k < o_max o)%nat ->
  exists p c x, go_on p c (o_tol o) = false /\ calculate_error P x = Some (o_x o', c).
Proof.
  induction fuel as [|fuel IH]; intros iters prev o o' k H K; [discriminate|]. cbn [nr_loop] in H.
  destruct (one_iteration P inv false o) as [o1|] eqn:I; [|discriminate]. apply one_iteration_frame in I. destruct I as (I & J & _).
  destruct (calculate_error P (o_x o1)) as [[x2 cur]|] eqn:E; [|discriminate]. cbn [o_tol o_max with_x] in H.
  destruct (andb _ _) eqn:B.
  - apply IH in H; cbn in *; [|congruence]. rewrite J in H. exact H.
  - injection H as <- <-. rewrite I in B. destruct (Nat.ltb_spec (S iters) (o_max o)); [|lia].
    rewrite andb_true_r, J in B. exists prev, cur, (o_x o1). cbn. auto.
Qed.
Lemma nr_fuel (I : X -> Prop) fuel : forall iters prev o, (o_max o - iters < fuel)%nat ->
  I (o_x o) -> total P I -> exists o' k, nr_loop P inv fuel iters prev o = Some (o', k) /\ I (o_x o').
Proof.
  induction fuel as [|fuel IH]; intros iters prev o F HI T; [lia|]. cbn [nr_loop].
  destruct (one_iteration_total I false o HI T) as (o1 & E1 & I1). rewrite E1.
  apply one_iteration_frame in E1. destruct E1 as (M & _).
  destruct (tt_error _ _ T _ I1) as (x2 & cur & E2 & I2). rewrite E2. cbn [o_tol o_max with_x].
  destruct (andb _ _) eqn:Q; [|eauto]. apply IH; auto. cbn [o_max with_x]. apply andb_true_iff in Q. destruct Q as [_ Q]. apply Nat.ltb_lt in Q. lia.
Qed.

(** LM *)
Lemma lm_trace fuel : forall iters prev o o' k, lm_steps P inv fuel iters prev o = Some (o', k) ->
  exists es e p1 o1, passes P inv (es ++ [e]) prev o p1 o1 /\ (k = iters + length es + 1)%nat /\ Forall (fun e => e <> OConverged) es /\
    ((e = OConverged /\ o' = o1) \/
     (e <> OConverged /\ (o_max o <= k)%nat /\ exists x3 d,
        calculate_error P (match e with ORejected => update_state_from_bookkeep P (o_x o1) | _ => o_x o1 end) = Some (x3, d) /\ o_x o' = x3)).
Proof.
  induction fuel as [|fuel IH]; intros iters prev o o' k H; [discriminate|]. cbn [lm_steps] in H.
  destruct (lm_pass P inv prev o) as [[[o1 prev1] e]|] eqn:Q; [|discriminate].
  pose proof (pass_frame _ _ _ _ _ Q) as (M & _ & _).
  assert (REC : e <> OConverged -> lm_steps P inv fuel (S iters) prev1 o1 = Some (o', k) -> exists es e p1 o1, passes P inv (es ++ [e]) prev o p1 o1 /\ (k = iters + length es + 1)%nat /\ Forall (fun e => e <> OConverged) es /\
    ((e = OConverged /\ o' = o1) \/
     (e <> OConverged /\ (o_max o <= k)%nat /\ exists x3 d,
        calculate_error P (match e with ORejected => update_state_from_bookkeep P (o_x o1) | _ => o_x o1 end) = Some (x3, d) /\ o_x o' = x3))).
  { intros Ne H1. destruct (IH _ _ _ _ _ H1) as (es & e' & p2 & o2 & A & B & C & D). exists (e :: es), e', p2, o2.
    split; [cbn; econstructor; eauto|]. split; [cbn; lia|]. split; [constructor; auto|]. rewrite <- M. exact D. }
  destruct e.
  - destruct (Nat.ltb_spec (S iters) (o_max o1)). { apply REC; auto. discriminate. }
    destruct (calculate_error P _) as [[x3 d]|] eqn:E; [|discriminate]. injection H as <- <-.
    exists [], ORejected, prev1, o1. split; [cbn; econstructor; eauto; constructor|]. split; [cbn; lia|]. split; [constructor|]. right. split; [discriminate|]. split; [lia|].
    exists x3, d. cbn in *. auto.
  - injection H as <- <-. exists [], OConverged, prev1, o1. split; [cbn; econstructor; eauto; constructor|]. split; [cbn; lia|]. split; [constructor|]. left. auto.
  - destruct (Nat.ltb_spec (S iters) (o_max o1)). { apply REC; auto. discriminate. }
    destruct (calculate_error P _) as [[x3 d]|] eqn:E; [|discriminate]. injection H as <- <-.
    exists [], OAccepted, prev1, o1. split; [cbn; econstructor; eauto; constructor|]. split; [cbn; lia|]. split; [constructor|]. right. split; [discriminate|]. split; [lia|].
    exists x3, d. cbn in *. auto.
Qed.
Lemma lm_count fuel : forall iters prev o o' k, lm_steps P inv fuel iters prev o = Some (o', k) -> (iters < k <= Nat.max (S iters) (o_max o))%nat.
Proof.
  induction fuel as [|fuel IH]; intros iters prev o o' k H; [discriminate|]. cbn [lm_steps] in H.
  destruct (lm_pass P inv prev o) as [[[o1 prev1] e]|] eqn:Q; [|discriminate].
  pose proof (pass_frame _ _ _ _ _ Q) as (M & _ & _). rewrite M in H.
  destruct e; [| injection H as <- <-; lia |]; (destruct (Nat.ltb_spec (S iters) (o_max o)); [apply IH in H; rewrite M in H; lia |]);
  (destruct (calculate_error P _) as [[x3 d]|]; [|discriminate]); injection H as <- <-; lia.
Qed.
Lemma lm_fuel (I : X -> Prop) fuel : forall iters prev o, (o_max o - iters < fuel)%nat ->
  I (o_x o) -> total P I -> exists o' k, lm_steps P inv fuel iters prev o = Some (o', k) /\ I (o_x o').
Proof.
  induction fuel as [|fuel IH]; intros iters prev o F HI T; [lia|]. cbn [lm_steps].
  assert (PS : exists o1 prev1 e, lm_pass P inv prev o = Some (o1, prev1, e) /\ I (o_x o1)).
  { unfold lm_pass. destruct (one_iteration_total I true (with_x o (bookkeep_state P (o_x o))) (tt_book _ _ T _ HI) T) as (o1 & E1 & I1). rewrite E1.
    destruct (tt_error _ _ T _ I1) as (x2 & cur & E2 & I2). rewrite E2. cbv zeta.
    destruct (decide _ _ _); do 3 eexists; (split; [reflexivity|]); cbn; auto. apply (tt_restore _ _ T); auto. }
  destruct PS as (o1 & prev1 & e & Q & I1). rewrite Q.
  pose proof (pass_frame _ _ _ _ _ Q) as (M & _ & _).
  destruct e; [| eauto |]; (destruct (Nat.ltb_spec (S iters) (o_max o1)); [apply IH; auto; lia |]); cbv zeta;
  [ destruct (tt_error _ _ T (o_x (with_x o1 (update_state_from_bookkeep P (o_x o1)))) (tt_restore _ _ T _ I1)) as (x2 & cur & E2 & I2)
  | destruct (tt_error _ _ T _ I1) as (x2 & cur & E2 & I2) ]; rewrite E2; do 2 eexists; (split; [reflexivity|]); auto.
Qed.
End Loops.

(** the new lambda *)
Lemma new_lambda_cases l d den : new_lambda l d den = l \/ new_lambda l d den = l * 2 \/ new_lambda l d den = l * (1 / 4).
Proof.
  unfold new_lambda. destruct (Req_EM_T den 0). { destruct (Rltb 0 d); auto. }
  cbv zeta. destruct (Rltb (d / den) (1 / 4)) eqn:A; destruct (Rltb (8 / 10) (d / den)) eqn:B; auto.
  apply Rltb_true in A. apply Rltb_true in B. lra.
Qed.

(** ** Newton-Raphson as a sequence of steps *)
(** [newton P inv cs o o']: iterations from o to o', each followed by an
    evaluation of the error; cs are these errors *)
Inductive newton {X} (P : problem X) inv : list (option R) -> opt X -> opt X -> Prop :=
| newton_nil o : newton P inv [] o o
| newton_cons o o1 x2 c cs o' : one_iteration P inv false o = Some o1 -> calculate_error P (o_x o1) = Some (x2, c) ->
    newton P inv cs (with_x o1 x2) o' -> newton P inv (c :: cs) o o'.
(** the errors differ by more than the tolerance *)
Definition moved (tol : R) (p c : option R) : Prop := match p, c with Some p, Some c => tol < Rabs (p - c) | _, _ => False end.
Lemma go_on_moved p c tol : go_on p c tol = true <-> moved tol p c.
Proof.
  unfold go_on, moved. destruct p, c; try (split; [discriminate|tauto]). split; [apply Rltb_true|]. unfold Rltb. destruct (Rlt_dec _ _); auto.
Qed.
Lemma nr_trace {X} (P : problem X) inv fuel : forall iters prev o o' k, nr_loop P inv fuel iters prev o = Some (o', k) ->
  exists cs, newton P inv cs o o' /\ (k = iters + length cs)%nat /\ cs <> [] /\
    (forall j, (S j < length cs)%nat -> moved (o_tol o) (nth j (prev :: cs) None) (nth (S j) (prev :: cs) None)) /\
    ((k < o_max o)%nat -> ~ moved (o_tol o) (nth (length cs - 1) (prev :: cs) None) (nth (length cs) (prev :: cs) None)).
Proof.
  induction fuel as [|fuel IH]; intros iters prev o o' k H; [discriminate|]. cbn [nr_loop] in H.
  destruct (one_iteration P inv false o) as [o1|] eqn:I; [|discriminate]. pose proof (one_iteration_frame _ _ _ _ _ I) as (M & T & _).
  destruct (calculate_error P (o_x o1)) as [[x2 cur]|] eqn:E; [|discriminate]. cbn [o_tol o_max with_x] in H. rewrite T, M in H.
  destruct (go_on prev cur (o_tol o)) eqn:G; cbn [andb] in H.
  - destruct (Nat.ltb_spec (S iters) (o_max o)) as [L|L].
    + destruct (IH _ _ _ _ _ H) as (cs & N & K & NE & MV & ST). cbn [o_tol o_max with_x] in MV, ST. rewrite T in MV, ST. rewrite M in ST.
      exists (cur :: cs). split; [econstructor; eauto|]. split; [cbn; lia|]. split; [discriminate|]. split.
      * intros [|j] Lj; [cbn; apply go_on_moved; auto | apply MV; cbn in Lj; lia].
      * intros Lk. destruct cs as [|c2 cs]; [congruence|]. specialize (ST Lk). cbn in *. rewrite ?Nat.sub_0_r in *. exact ST.
    + injection H as <- <-. exists [cur]. split; [econstructor; eauto; constructor|]. split; [cbn; lia|]. split; [discriminate|]. split.
      * intros j Lj. cbn in Lj. lia.
      * lia.
  - injection H as <- <-. exists [cur]. split; [econstructor; eauto; constructor|]. split; [cbn; lia|]. split; [discriminate|]. split.
    + intros j Lj. cbn in Lj. lia.
    + intros _. cbn. intros Q. apply go_on_moved in Q. congruence.
Qed.

(** ** one step *)
Definition delta (i j : nat) : R := if Nat.eqb i j then 1 else 0.
(** B is a right inverse of the n by n matrix A *)
Definition right_inverse (n : nat) (A B : nat -> nat -> R) : Prop :=
  forall i j, (i < n)%nat -> (j < n)%nat -> sumn n (fun k => A i k * B k j) = delta i j.
Lemma one_iteration_spec {X} (P : problem X) inv b o o' : one_iteration P inv b o = Some o' ->
  exists x1 H, calculate_gradient_hessian P (o_x o) = Some (x1, (o_n o', o_grad o', H)) /\ update_state P (o_dx o') x1 = Some (o_x o') /\
    (forall i j, o_hess o' i j = H i j + (if b then match o_method o with NEWTON_RAPHSON => 0 | LM_SPHER => o_lambda o * delta i j | LM_ELLIP => o_lambda o * delta i j * H i i end else 0)) /\
    (right_inverse (o_n o') (o_hess o') (inv (o_n o') (o_hess o')) ->
     forall i, (i < o_n o')%nat -> sumn (o_n o') (fun j => o_hess o' i j * o_dx o' j) = - o_grad o' i).
Proof.
  unfold one_iteration. destruct (calculate_gradient_hessian P (o_x o)) as [[x1 [[n g] H]]|] eqn:E; [|discriminate]. cbv zeta.
  destruct (update_state P _ x1) as [x2|] eqn:U; [|discriminate]. intros Q. injection Q as <-. cbn [o_n o_grad o_hess o_dx o_x].
  exists x1, H. split; [reflexivity|]. split; [exact U|]. split.
  - intros i j. unfold damp, delta. destruct b; cbn [andb]; [|ring]. destruct (Nat.eqb_spec i j) as [->|]; destruct (o_method o); ring.
  - intros RI i Hi. set (A := damp _ _ _ H) in *. clearbody A.
    rewrite (sumn_ext n _ (fun j => sumn n (fun k => - (A i j * inv n A j k * g k)))).
    2:{ intros j _. rewrite sumn_opp. rewrite (Rmult_comm (A i j)), <- Ropp_mult_distr_l. f_equal. rewrite sumn_mult_r. apply sumn_ext. intros; ring. }
    rewrite sumn_swap. rewrite (sumn_ext n _ (fun k => - (delta i k * g k))).
    2:{ intros k Hk. rewrite sumn_opp. f_equal. rewrite <- (RI i k Hi Hk), sumn_mult_r. reflexivity. }
    rewrite sumn_opp. f_equal. rewrite (sumn_single n i); auto. unfold delta. rewrite Nat.eqb_refl. ring.
    intros k _ N. unfold delta. destruct (Nat.eqb_spec i k); [congruence|ring].
Qed.
(** what one pass of LM does, for errors that are numbers *)
Lemma lm_pass_spec {X} (P : problem X) inv p o o' prev' e : lm_pass P inv (Some p) o = Some (o', prev', e) ->
  exists o1 x2 cur, one_iteration P inv true (with_x o (bookkeep_state P (o_x o))) = Some o1 /\ calculate_error P (o_x o1) = Some (x2, cur) /\
  forall c, cur = Some c ->
    (c > p -> e = ORejected /\ prev' = Some p /\ o_x o' = update_state_from_bookkeep P x2 /\ o_lambda o' = 2 * o_lambda o) /\
    (c <= p -> p - c < o_tol o -> e = OConverged /\ prev' = Some c /\ o_x o' = x2 /\ o_lambda o' = o_lambda o) /\
    (c <= p -> o_tol o <= p - c -> e = OAccepted /\ prev' = Some c /\ o_x o' = x2 /\
       (let den := model_decrease o1 in den <> 0 ->
        ((p - c) / den < 1 / 4 -> o_lambda o' = 2 * o_lambda o) /\ (1 / 4 <= (p - c) / den <= 8 / 10 -> o_lambda o' = o_lambda o) /\
        (8 / 10 < (p - c) / den -> o_lambda o' = o_lambda o / 4))).
Proof.
  unfold lm_pass. destruct (one_iteration P inv true _) as [o1|] eqn:I; [|discriminate]. pose proof (one_iteration_frame _ _ _ _ _ I) as (_ & T & L & _). cbn [with_x o_tol o_lambda] in T, L.
  destruct (calculate_error P (o_x o1)) as [[x2 cur]|] eqn:E; [|discriminate]. intros H. exists o1, x2, cur. split; auto. split; auto.
  intros c ->. cbn [with_x o_tol o_lambda] in H. cbn [decide] in H. rewrite T in H.
  destruct (Rltb (p - c) 0) eqn:B1.
  { apply Rltb_true in B1. injection H as <- <- <-. cbn. rewrite L. repeat split; try lra; intros; try (exfalso; lra). }
  apply Rltb_false in B1. destruct (Rltb (p - c) (o_tol o)) eqn:B2.
  { apply Rltb_true in B2. injection H as <- <- <-. cbn. rewrite L. repeat split; try lra; intros; try (exfalso; lra). }
  apply Rltb_false in B2. injection H as <- <- <-. cbn [o_x o_lambda with_x with_lam].
  split; [intros; exfalso; lra|]. split; [intros; exfalso; lra|]. intros _ _. repeat split; auto; intros Hq;
  change (model_decrease (with_x o1 x2)) with (model_decrease o1); unfold new_lambda; destruct (Req_EM_T (model_decrease o1) 0) as [Z|_]; try contradiction;
  set (q := (p - c) / model_decrease o1) in *; cbv zeta; unfold Rltb; destruct (Rlt_dec q (1 / 4)), (Rlt_dec (8 / 10) q); try (exfalso; lra); rewrite L; lra.
Qed.
