(** Specifications for C95: the uncertainty of a chain of odometry. *)
Require Import Reals List Arith.
From Verif Require Import Lin SO3 SE3 SE3Cov SpecGeom Nodes Robust Graph Sums Solve SpecSolve Session Factors SpecFactors SpecSolvable.
Import ListNotations.
Local Open Scope R_scope.

(** the calls that add a measurement *)
Definition measures (c : pycall) : bool := match call_factor c with Some _ => true | None => false end.
(** the only measurements of the session are those from pose [k] to pose [k + 1], in this
    order; the first pose is an anchor, the others are not *)
Definition odometry (cs : list pycall) (obs : nat -> M4) (W : nat -> nat -> nat -> R) (n : nat) : Prop :=
  (exists u, filter measures cs = map (fun k => C2Poses3d (obs k) k (S k) (W k) (u k)) (seq 0 n)) /\
  (exists A, nth_error (nodes_of cs) 0 = Some (ANCHOR, P3 A)) /\ length (nodes_of cs) = S n /\
  forall i, (i < n)%nat -> exists A, nth_error (nodes_of cs) (S i) = Some (STANDARD, P3 A).
(** the poses [T] are rigid and agree with the increments *)
Definition dead_reckoning (T obs : nat -> M4) (n : nat) : Prop :=
  rigid (T 0%nat) /\ forall k, (k < n)%nat -> rigid (obs k) /\ T (S k) = m4mul (T k) (obs k).
(** matrices of size [n] given by their entries *)
Definition inverse_of (n : nat) (A B : nat -> nat -> R) : Prop :=
  forall i j, (i < n)%nat -> (j < n)%nat -> sumn n (fun k => A i k * B k j) = if Nat.eqb i j then 1 else 0.
Definition entries6 (A : M6) : nat -> nat -> R := lmat (rows6 A).
(** the blocks of the covariance of the poses 1 .. n, six rows per pose: for two poses,
    the sum over the increments that lie on the way to both *)
Definition shared_way (Q : nat -> nat -> nat -> R) (p q : nat) : R :=
  sumn (S (min (p / 6) (q / 6))) (fun k => Q k (p mod 6)%nat (q mod 6)%nat).
(** SE3Cov.compound_2nd_order along the increments (with covariances [C]) from pose [T] *)
Fixpoint compounded (T : M4) (obs : nat -> M4) (C : nat -> M6) (n : nat) : SE3Cov :=
  match n with
  | O => mkSE3Cov T m6zero
  | S k => compound2 (compounded T obs C k) (obs k) (C k)
  end.
(** a covariance given in the frame of pose [T], in the frame of the map *)
Definition carried (T : M4) (C : M6) : M6 := m6mul (m6mul (se3_adj T) C) (m6tr (se3_adj T)).
