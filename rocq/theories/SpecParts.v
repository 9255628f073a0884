(** Specifications for C87: parts of a graph. *)
Require Import Reals List Arith Permutation.
From Verif Require Import Lin Nodes Robust Graph Sums Solve SpecSolve Session Factors SpecFactors SpecSolvable SpecMapping SpecReorder.
Import ListNotations.
Local Open Scope R_scope.

(** the nodes a call measures *)
Definition touches (c : pycall) : list nat := match call_factor c with Some (_, ids, _) => ids | None => [] end.
(** session [cs1] is a part of session [cs], its node [i] being node [p i] there: the
    other measurements of [cs] touch no node of the part except anchors *)
Record part_of (p : nat -> nat) (cs1 cs : list pycall) : Prop := {
  po_node : forall i m v, nth_error (nodes_of cs1) i = Some (m, v) -> exists v', nth_error (nodes_of cs) (p i) = Some (m, v');
  po_apart : forall i j, (i < length (nodes_of cs1))%nat -> (j < length (nodes_of cs1))%nat -> p i = p j -> i = j;
  po_calls : exists others, Permutation (flat_map measured cs) (map (rename p) (flat_map measured cs1) ++ others) /\
    forall c i, In c others -> (i < length (nodes_of cs1))%nat -> In (p i) (touches c) -> exists v, nth_error (nodes_of cs1) i = Some (ANCHOR, v) }.
