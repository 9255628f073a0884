(** Specifications for C100: one more measurement. *)
Require Import Reals List Arith.
From Verif Require Import Lin Sums SpecDof.
Local Open Scope R_scope.

(** the covariance of the innovation, J C J' + N for noise of covariance N, and the gain, C J' T, where T is its
    inverse *)
Definition innovation (n : nat) (J C N : nat -> nat -> R) (a b : nat) : R :=
  times n (times n J C) (transposed J) a b + N a b.
Definition gain (n m : nat) (J C T : nat -> nat -> R) : nat -> nat -> R :=
  times m (times n C (transposed J)) T.
