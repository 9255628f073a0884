(** Specifications for C98: degrees of freedom. *)
Require Import Reals List Arith.
From Verif Require Import Lin Nodes Robust Graph Sums Solve SpecSolve.
Local Open Scope R_scope.

Definition trace (n : nat) (H : nat -> nat -> R) : R := sumn n (fun i => H i i).
Definition times (n : nat) (A B : nat -> nat -> R) (i j : nat) : R := sumn n (fun k => A i k * B k j).
Definition transposed (A : nat -> nat -> R) (i j : nat) : R := A j i.
(** the matrix that takes the residuals to what a least squares fit explains of them:
    H = A C A' W, for the Jacobian A of the M residuals in n unknowns, the weights W and
    the covariance C *)
Definition hat (M n : nat) (A W C : nat -> nat -> R) : nat -> nat -> R :=
  times M (times n (times n A C) (transposed A)) W.
(** the least value of the linearised cost among the increments that leave the anchors
    alone *)
Definition still_anchors (w : world) (d : loc -> nat -> R) : Prop := forall l k, n_mode (nd w l) = ANCHOR -> d l k = 0.
Definition least_cost (w : world) (c : R) : Prop :=
  (exists d, still_anchors w d /\ lin_cost w d = c) /\ forall d, still_anchors w d -> c <= lin_cost w d.
(** the matrices of get_adjacency_matrix and get_W_matrix; of the second the upper half is
    stored *)
Definition Amat (b : solver) : nat -> nat -> R := sp_get (s_A b).
Definition Wmat (b : solver) : nat -> nat -> R := fun p q => if Nat.leb p q then sp_get (s_W b) p q else sp_get (s_W b) q p.
(** the graph [s] poses a problem with [M] residuals, [n] unknowns, the Jacobian [A] and
    the weights [W]; [b] is the solver after the problem was built *)
Definition posed_with (M n : nat) (A W : nat -> nat -> R) (s b : solver) : Prop :=
  build_problem false s = Some b /\ g_obsDim (w_graph (s_w s)) = M /\ g_stateDim (w_graph (s_w s)) = n /\
  (forall p i, (p < M)%nat -> (i < n)%nat -> Amat b p i = A p i) /\ (forall p q, (p < M)%nat -> (q < M)%nat -> Wmat b p q = W p q).
(** the residuals of the runs are noise whose second moments, averaged over the runs, are
    [S], and besides the noise what a wrong initial guess makes of them *)
Definition noisy {T} (M n : nat) (A S : nat -> nat -> R) (runs : list T) (r : T -> nat -> R) : Prop :=
  exists e d : T -> nat -> R,
    (forall x p, In x runs -> (p < M)%nat -> r x p = e x p + sumn n (fun i => A p i * d x i)) /\
    forall p q, (p < M)%nat -> (q < M)%nat -> lsum runs (fun x => e x p * e x q) = INR (length runs) * S p q.
