(** Specifications for C96: what more measurements do to the uncertainty. *)
Require Import Reals List Arith Permutation.
From Verif Require Import Lin Nodes Robust Graph Sums Solve SpecSolve Session Factors SpecFactors SpecSolvable SpecChain.
Import ListNotations.
Local Open Scope R_scope.

(** the session [cs'] has all nodes of [cs] and after them the nodes [ex], and all
    measurements of [cs] and besides them the measurements [more], in any order *)
Definition shape (x : node_mode * nval) : node_mode * kind := (fst x, kind_of (snd x)).
Definition grown (cs cs' : list pycall) (ex : list (node_mode * kind)) (more : list pycall) : Prop :=
  map shape (nodes_of cs') = map shape (nodes_of cs) ++ ex /\ Permutation (filter measures cs') (filter measures cs ++ more).
