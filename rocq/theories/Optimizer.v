(** Model of Optimizer and OptimizerDense: /repo/src/common/optimizer.cpp and
    /repo/src/common/mrob/optimizer.hpp.

    The virtual methods of a child class are the fields of [problem]; X is the
    data of the child (the graph, the trajectory and planes, ...). [None] as a
    result of a method is undefined behaviour, [None] as an error is NaN.
    Matrices are functions of their indices, n is their size. Printing is not
    modelled. *)
Require Import Reals List Arith Bool.
From Verif Require Import SO3 Sums.
Import ListNotations.
Local Open Scope R_scope.

(** optimizer.hpp:83-115 *)
Record problem (X : Type) : Type := mkProblem {
  calculate_error : X -> option (X * option R);
  calculate_gradient_hessian : X -> option (X * (nat * (nat -> R) * (nat -> nat -> R)));
  update_state : (nat -> R) -> X -> option X;
  bookkeep_state : X -> X;
  update_state_from_bookkeep : X -> X }.
Arguments mkProblem {X}. Arguments calculate_error {X}. Arguments calculate_gradient_hessian {X}.
Arguments update_state {X}. Arguments bookkeep_state {X}. Arguments update_state_from_bookkeep {X}.

(** optimizer.hpp:74 *)
Inductive method : Type := NEWTON_RAPHSON | LM_SPHER | LM_ELLIP.
(** optimizer.hpp:147-163; o_n is the size of gradient_, dx_ and hessian_ *)
Record opt (X : Type) : Type := mkO {
  o_x : X; o_method : method; o_tol : R; o_max : nat; o_lambda : R;
  o_n : nat; o_grad : nat -> R; o_hess : nat -> nat -> R; o_dx : nat -> R }.
Arguments mkO {X}. Arguments o_x {X}. Arguments o_method {X}. Arguments o_tol {X}. Arguments o_max {X}.
Arguments o_lambda {X}. Arguments o_n {X}. Arguments o_grad {X}. Arguments o_hess {X}. Arguments o_dx {X}.
(** optimizer.cpp:30-34; optimization_method_ {} *)
Definition opt_new {X} (x : X) (tol lambda : R) : opt X :=
  mkO x NEWTON_RAPHSON tol 100 lambda 0 (fun _ => 0) (fun _ _ => 0) (fun _ => 0).
Definition with_x {X} (o : opt X) (x : X) : opt X :=
  mkO x (o_method o) (o_tol o) (o_max o) (o_lambda o) (o_n o) (o_grad o) (o_hess o) (o_dx o).
Definition with_lam {X} (o : opt X) (l : R) : opt X :=
  mkO (o_x o) (o_method o) (o_tol o) (o_max o) l (o_n o) (o_grad o) (o_hess o) (o_dx o).

(** lines 63-75 *)
Definition damp (m : method) (useLambda : bool) (lambda : R) (H : nat -> nat -> R) : nat -> nat -> R :=
  fun i j => if andb useLambda (Nat.eqb i j)
             then match m with LM_SPHER => H i j + lambda | LM_ELLIP => H i j * (1 + lambda) | NEWTON_RAPHSON => H i j end
             else H i j.
(** lines 59-83; [inv] is MatX::inverse (external), any function *)
Definition one_iteration {X} (P : problem X) (inv : nat -> (nat -> nat -> R) -> nat -> nat -> R) (useLambda : bool) (o : opt X) : option (opt X) :=
  match calculate_gradient_hessian P (o_x o) with
  | None => None
  | Some (x1, (n, g, H)) =>
      let H' := damp (o_method o) useLambda (o_lambda o) H in
      let dx := fun i => - sumn n (fun j => inv n H' i j * g j) in
      match update_state P dx x1 with
      | None => None
      | Some x2 => Some (mkO x2 (o_method o) (o_tol o) (o_max o) (o_lambda o) n g H' dx)
      end
  end.

(** lines 85-102: do ... while (fabs(diff) > tol && iters < max_iters_). A NaN
    difference compares false and stops the loop. [fuel]: see OptimizerProofs. *)
Definition go_on (prev cur : option R) (tol : R) : bool :=
  match prev, cur with Some p, Some c => Rltb tol (Rabs (p - c)) | _, _ => false end.
Fixpoint nr_loop {X} (P : problem X) inv (fuel iters : nat) (prev : option R) (o : opt X) : option (opt X * nat) :=
  match fuel with
  | O => None
  | S fuel =>
      match one_iteration P inv false o with
      | None => None
      | Some o1 =>
          match calculate_error P (o_x o1) with
          | None => None
          | Some (x2, cur) =>
              let o2 := with_x o1 x2 in
              if andb (go_on prev cur (o_tol o2)) (Nat.ltb (S iters) (o_max o2))
              then nr_loop P inv fuel (S iters) cur o2 else Some (o2, S iters)
          end
      end
  end.
Definition opt_nr {X} (P : problem X) inv (o : opt X) : option (opt X * nat) :=
  match calculate_error P (o_x o) with
  | None => None
  | Some (x, e) => nr_loop P inv (S (o_max o)) 0 e (with_x o x)
  end.

(** lines 180-184 and 145-152: the new lambda; with a zero denominator the
    fidelity is +inf (diff > 0) or NaN (diff = 0) *)
Definition vdot (n : nat) (x y : nat -> R) : R := sumn n (fun i => x i * y i).
Definition new_lambda (lambda diff den : R) : R :=
  if Req_EM_T den 0 then (if Rltb 0 diff then lambda * (1 / 4) else lambda)
  else
    let fidelity := diff / den in
    let l1 := if Rltb fidelity (1 / 4) then lambda * 2 else lambda in
    if Rltb (8 / 10) fidelity then l1 * (1 / 4) else l1.
Definition model_decrease {X} (o : opt X) : R :=
  - vdot (o_n o) (o_dx o) (o_grad o) - 1 / 2 * vdot (o_n o) (o_dx o) (fun i => sumn (o_n o) (fun j => o_hess o i j * o_dx o j)).
Inductive outcome : Type := ORejected | OConverged | OAccepted.
(** lines 122-137 on doubles: with a NaN all comparisons are false *)
Definition decide (prev cur : option R) (tol : R) : outcome :=
  match prev, cur with
  | Some p, Some c => if Rltb (p - c) 0 then ORejected else if Rltb (p - c) tol then OConverged else OAccepted
  | _, _ => OAccepted
  end.
(** lines 114-153: one pass of the loop; the result includes previous_error *)
Definition lm_pass {X} (P : problem X) inv (prev : option R) (o : opt X) : option (opt X * option R * outcome) :=
  match one_iteration P inv true (with_x o (bookkeep_state P (o_x o))) with
  | None => None
  | Some o1 =>
      match calculate_error P (o_x o1) with
      | None => None
      | Some (x2, cur) =>
          let o2 := with_x o1 x2 in
          match decide prev cur (o_tol o2) with
          | ORejected => Some (with_x (with_lam o2 (o_lambda o2 * 2)) (update_state_from_bookkeep P x2), prev, ORejected)
          | OConverged => Some (o2, cur, OConverged)
          | OAccepted =>
              let lambda := match prev, cur with Some p, Some c => new_lambda (o_lambda o2) (p - c) (model_decrease o2) | _, _ => o_lambda o2 end in
              Some (with_lam o2 lambda, cur, OAccepted)
          end
      end
  end.
(** lines 104-169. When the loop ends without convergence: if the last pass was
    rejected the state is restored once more; then the error is evaluated. *)
Fixpoint lm_steps {X} (P : problem X) inv (fuel iters : nat) (prev : option R) (o : opt X) : option (opt X * nat) :=
  match fuel with
  | O => None
  | S fuel =>
      match lm_pass P inv prev o with
      | None => None
      | Some (o1, prev1, e) =>
          match e with
          | OConverged => Some (o1, S iters)
          | _ =>
              if Nat.ltb (S iters) (o_max o1) then lm_steps P inv fuel (S iters) prev1 o1
              else
                let o2 := match e with ORejected => with_x o1 (update_state_from_bookkeep P (o_x o1)) | _ => o1 end in
                match calculate_error P (o_x o2) with
                | None => None
                | Some (x3, _) => Some (with_x o2 x3, S iters)
                end
          end
      end
  end.
Definition opt_lm {X} (P : problem X) inv (o : opt X) : option (opt X * nat) :=
  match calculate_error P (o_x o) with
  | None => None
  | Some (x, e) => lm_steps P inv (S (o_max o)) 0 e (with_x o x)
  end.

(** lines 42-56 *)
Definition opt_solve {X} (P : problem X) inv (m : method) (max_iters : nat) (lambda : R) (o : opt X) : option (opt X * nat) :=
  let o1 := mkO (o_x o) m (o_tol o) max_iters (match m with NEWTON_RAPHSON => o_lambda o | _ => lambda end)
                (o_n o) (o_grad o) (o_hess o) (o_dx o) in
  match m with
  | NEWTON_RAPHSON => opt_nr P inv o1
  | _ => opt_lm P inv o1
  end.
