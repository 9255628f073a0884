(** Specifications for C99: nodes held fixed. *)
Require Import Reals List Arith Permutation.
From Verif Require Import Lin Nodes Robust Graph Sums Solve SpecSolve Session Factors SpecFactors SpecSolvable SpecChain.
Import ListNotations.
Local Open Scope R_scope.

(** the session [cs'] has the nodes of [cs], some of them as anchors, and the same
    measurements in any order *)
Definition pinned (cs cs' : list pycall) : Prop :=
  Forall2 (fun a b : node_mode * nval => kind_of (snd b) = kind_of (snd a) /\ (fst b = fst a \/ fst b = ANCHOR)) (nodes_of cs) (nodes_of cs') /\
  Permutation (filter measures cs') (filter measures cs).
(** [v] are the coefficients, in the coordinates of the solver, of the combination of the
    states that takes coordinate [k] of node [i] times [g i k] *)
Definition combination (w : world) (g : nat -> nat -> R) (v : nat -> R) : Prop :=
  forall m l k, nth_error (g_active (w_graph w)) m = Some l -> (k < ndim w l)%nat -> v (col w m + k)%nat = g (n_id (nd w l)) k.
