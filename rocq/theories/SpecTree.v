(** Specifications for C86: planar pose graphs without loops. *)
Require Import Reals List Arith.
From Verif Require Import Lin Nodes Robust Graph Sums Solve SpecSolve Session Factors SpecFactors SpecSolvable.
Import ListNotations.
Local Open Scope R_scope.

(** the call measures node [j] against a known node, or by itself *)
Definition adds (known : list nat) (c : pycall) (j : nat) : Prop :=
  match c with
  | CPose2d _ i _ => j = i
  | C2Poses2d _ i k _ _ | COdom2d _ i k _ => (j = k /\ In i known) \/ (j = i /\ In k known)
  | _ => False
  end.
(** each measurement reaches one more node *)
Inductive grown : list nat -> list pycall -> Prop :=
| grown_end known : grown known []
| grown_next known c j M : adds known c j -> ~ In j known -> grown (j :: known) M -> grown known (c :: M).
(** the measurements of a session, in some order, reach the nodes one by one from the anchors *)
Definition tree (cs : list pycall) : Prop :=
  exists anchors M, (forall i, In i anchors <-> exists v, nth_error (nodes_of cs) i = Some (ANCHOR, v)) /\ grown anchors M /\
  forall c, In c M <-> In c cs /\ call_factor c <> None.
(** the measured headings and differences of headings are met (mod 2 pi) *)
Definition headings_met (cs : list pycall) (st : nat -> nval) : Prop :=
  forall c, In c cs -> match call_factor c with Some (cl, ids, _) => fc_res cl (map st ids) 2%nat = 0 | None => True end.
