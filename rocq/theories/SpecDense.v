(** Specifications for the dense solver. *)
Require Import Reals List Arith.
From Verif Require Import Nodes Robust Graph GraphProofs Sums Solve SpecSolve.
Import ListNotations.
Local Open Scope R_scope.

(** graphs the dense solver is meant for: every node counts in the state (no
    anchors), ids identify nodes, neighbours are in the graph and pairwise
    different, nodes and factors list each other *)
Record dwf (w : world) : Prop := {
  d_nodes : forall l, In l (g_nodes (w_graph w)) -> (l < length (w_nodes w))%nat;
  d_ids : NoDup (map (fun l => n_id (nd w l)) (g_nodes (w_graph w)));
  d_state : g_stateDim (w_graph w) = lsumn (map (ndim w) (g_nodes (w_graph w)));
  d_factors : NoDup (g_factors (w_graph w));
  d_valid : forall f, In f (g_factors (w_graph w)) -> (f < length (w_factors w))%nat;
  d_neigh : forall f l, In f (g_factors (w_graph w)) -> In l (f_nodes (fa w f)) -> In l (g_nodes (w_graph w));
  d_distinct : forall f, In f (g_factors (w_graph w)) -> NoDup (f_nodes (fa w f));
  d_cols : forall f, In f (g_factors (w_graph w)) -> f_alldim (fa w f) = lsumn (map (ndim w) (f_nodes (fa w f)));
  d_once : forall l, In l (g_nodes (w_graph w)) -> NoDup (n_factors (nd w l));
  d_listed : forall l f, In l (g_nodes (w_graph w)) ->
     (In f (n_factors (nd w l)) <-> In f (g_factors (w_graph w)) /\ In l (f_nodes (fa w f))) }.

(** the increment of a node in a vector of the dense solver *)
Definition dinc (w : world) (x : vec) : loc -> nat -> R :=
  fun n k => x (before (ndim w) (g_nodes (w_graph w)) (index_of n (g_nodes (w_graph w))) + k)%nat.
(** the number of nodes of a factor *)
Definition arity (w : world) (f : loc) : R := INR (length (f_nodes (fa w f))).
(** derivative of chi2 along x: sum of r' W J x *)
Definition slope (w : world) (x : vec) : R :=
  lsum (g_factors (w_graph w)) (fun f => quad (fdim w f) (f_info (fa w f)) (jac_times w f (dinc w x)) (res_at w f)).
(** the headings are wrapped, or the factors do not see multiples of 2 pi *)
Definition dstates (w : world) : Prop :=
  (forall l, In l (g_nodes (w_graph w)) -> val_set (nst (n_data (nd w l))) = nst (n_data (nd w l))) \/
  (forall l, In l (g_factors (w_graph w)) -> wrap_blind (fa w l)).
