(** Model of Factor::evaluate_robust_weight, /repo/src/FGraph/factor.cpp:42-73. *)
Require Import Reals List.
From Verif Require Import SO3.
Import ListNotations.
Local Open Scope R_scope.

(** factor.hpp:86 *)
Inductive robust_type := QUADRATIC | HUBER | CAUCHY | MCCLURE | RANSAC.

(** factor.cpp:30 robust_weight_(0.0) *)
Definition robust_init : R := 0.
(** factor.cpp:42-73; [w] is the previous robust_weight_, the result the new one
    (also the return value). The second argument is overwritten before use. *)
Definition robust_eval (t : robust_type) (w u : R) : R :=
  match t with
  | HUBER => if Rltb u 1 then 1 else 1 / u
  | CAUCHY => 1 / (1 + u * u)
  | MCCLURE => let params := 1 + u * u in 1 / params / params
  | RANSAC => w
  | QUADRATIC => 1
  end.
(** the weight after a sequence of evaluations on a fresh factor, last first *)
Definition robust_after (t : robust_type) (us : list R) : R :=
  fold_left (fun w u => robust_eval t w u) us robust_init.
