(** wrap_angle (src/FGraph/node.cpp:60-68), over the reals and over IEEE
    binary64. *)
Require Import Reals ZArith.
From Flocq Require Import Core IEEE754.BinarySingleNaN IEEE754.Binary IEEE754.Bits.
From Verif Require Import SO3.
Local Open Scope R_scope.

(** [while (c x) x = f x] run for at most [fuel] tests of the condition;
    [None]: still running. *)
Fixpoint while {A} (fuel : nat) (c : A -> bool) (f : A -> A) (x : A) : option A :=
  match fuel with
  | O => None
  | S n => if c x then while n c f (f x) else Some x
  end.

(** node.cpp:60-68, doubles read as reals; each loop may test its condition
    [fuel] times. *)
Definition wrap_run (fuel : nat) (angle : R) : option R :=
  match while fuel (fun a => Rltb a (- PI)) (fun a => a + 2 * PI) angle with
  | None => None
  | Some a => while fuel (fun a => Rleb PI a) (fun a => a - 2 * PI) a
  end.
(** The value used by the callers. The fuel is chosen from the argument; it
    always suffices (AngleProofs.wrap_run_total), so the default is not reached. *)
Definition wrap_angle (angle : R) : R :=
  match wrap_run (S (Z.to_nat (up (Rabs angle)))) angle with Some a => a | None => angle end.

(** ** binary64 *)
(** M_PI as a double: 0x400921FB54442D18 *)
Definition b64_pi : binary64 := b64_of_bits 0x400921FB54442D18.
(** 2 * M_PI (node.cpp:62) *)
Definition b64_pi2 : binary64 := b64_mult mode_NE (b64_of_bits 0x4000000000000000) b64_pi.
Definition b64_lt (x y : binary64) : bool := match b64_compare x y with Some Lt => true | _ => false end.
Definition b64_ge (x y : binary64) : bool := match b64_compare x y with Some Lt => false | Some _ => true | None => false end.
(** node.cpp:60-68 in binary64, round to nearest even *)
Definition wrap_run64 (fuel : nat) (angle : binary64) : option binary64 :=
  match while fuel (fun a => b64_lt a (b64_opp b64_pi)) (fun a => b64_plus mode_NE a b64_pi2) angle with
  | None => None
  | Some a => while fuel (fun a => b64_ge a b64_pi) (fun a => b64_minus mode_NE a b64_pi2) a
  end.
