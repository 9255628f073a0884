(** Model of Node, Factor and FGraph: /repo/src/FGraph/node.cpp, factor.cpp,
    factor_graph.cpp and their headers.

    Pointers: a shared_ptr<Node> (shared_ptr<Factor>) is a location, an index in
    the heap [w_nodes] ([w_factors]). Two shared_ptr are equal (node.cpp:52) iff
    the locations are equal. A null or dangling pointer is UB, [None].
    Counters and sizes are unbounded (uint_t and size_t wrap around is not
    modelled). *)
Require Import Reals List Arith.
From Verif Require Import Nodes Robust.
Import ListNotations.
Local Open Scope R_scope.

Notation loc := nat (only parsing).

(** node.hpp:63 *)
Inductive node_mode : Type := STANDARD | ANCHOR | SCHUR_MARGI.
(** node.hpp:130-135, plus the state and auxiliary state of the child class *)
Record node : Type := mkNode {
  n_id : nat; n_dim : nat; n_mode : node_mode; n_factors : list loc; n_data : ndata }.
(** node.cpp:28-31, constructors of the child classes (e.g. nodePose2d.cpp:29-34) *)
Definition node_ctor (m : node_mode) (v : nval) : node :=
  mkNode 0 (nval_dim v) m [] (node_new v).

(** factor.hpp:158-171 and what child classes add (factor.hpp:183-186).
    [f_res], [f_jac] are what evaluate_residuals and evaluate_jacobians compute
    from the states of the neighbour nodes, in the order of neighbourNodes_;
    [f_info] is get_information_matrix; [f_r], [f_J], [f_chi2] the values cached
    by the last evaluation. The shape of [f_res]/[f_jac] is arbitrary here; the
    concrete factors are in Factors.v. *)
Record factor : Type := mkFactor {
  f_id : nat; f_dim : nat; f_alldim : nat; f_nodes : list loc;
  f_res : list nval -> nat -> R; f_jac : list nval -> nat -> nat -> R; f_info : nat -> nat -> R;
  f_r : nat -> R; f_J : nat -> nat -> R; f_chi2 : R;
  f_rob : robust_type; f_weight : R }.
(** factor.cpp:29-34 and the child constructors: no evaluation is done there *)
Definition factor_ctor (dim alldim : nat) (ns : list loc) (res : list nval -> nat -> R)
  (jac : list nval -> nat -> nat -> R) (info : nat -> nat -> R) (t : robust_type) : factor :=
  mkFactor 0 dim alldim ns res jac info (fun _ => 0) (fun _ _ => 0) 0 t robust_init.

(** factor_graph.hpp:122-137 *)
Record graph : Type := mkGraph {
  g_nodes : list loc; g_active : list loc; g_factors : list loc; g_eigen : list loc;
  g_stateDim : nat; g_obsDim : nat }.
(** factor_graph.cpp:30-33 *)
Definition graph_new : graph := mkGraph [] [] [] [] 0 0.

Record world : Type := mkW { w_nodes : list node; w_factors : list factor; w_graph : graph }.
Definition world_new : world := mkW [] [] graph_new.

Fixpoint upd {A} (l : list A) (i : nat) (f : A -> A) : list A :=
  match l, i with
  | [], _ => []
  | x :: r, O => f x :: r
  | x :: r, S i => x :: upd r i f
  end.

(** node.hpp:110, 126 and factor.hpp:137 *)
Definition node_set_id (k : nat) (n : node) := mkNode k (n_dim n) (n_mode n) (n_factors n) (n_data n).
Definition node_set_mode (m : node_mode) (n : node) := mkNode (n_id n) (n_dim n) m (n_factors n) (n_data n).
Definition node_set_data (d : ndata) (n : node) := mkNode (n_id n) (n_dim n) (n_mode n) (n_factors n) d.
Definition factor_set_id (k : nat) (f : factor) :=
  mkFactor k (f_dim f) (f_alldim f) (f_nodes f) (f_res f) (f_jac f) (f_info f) (f_r f) (f_J f) (f_chi2 f) (f_rob f) (f_weight f).

(** node.cpp:37-41, vector::push_back *)
Definition node_add_factor (f : loc) (n : node) := mkNode (n_id n) (n_dim n) (n_mode n) (n_factors n ++ [f]) (n_data n).
(** node.cpp:50-55: the search loop, then erase at the position found; erase(end()) is UB *)
Fixpoint erase_first (f : loc) (l : list loc) : option (list loc) :=
  match l with
  | [] => None
  | x :: r => if Nat.eqb x f then Some r else option_map (cons x) (erase_first f r)
  end.
(** node.cpp:43-57 *)
Definition node_rm_factor (f : loc) (n : node) : option node :=
  option_map (fun l => mkNode (n_id n) (n_dim n) (n_mode n) l (n_data n)) (erase_first f (n_factors n)).
(** node.hpp:121 *)
Definition node_clear (n : node) := mkNode (n_id n) (n_dim n) (n_mode n) [] (n_data n).

(** factor_graph.cpp:49-52: n->add_factor(factor) for every listed neighbour *)
Definition link_all (ns : list loc) (f : loc) (h : list node) : list node :=
  fold_left (fun h n => upd h n (node_add_factor f)) ns h.

(** factor_graph.cpp:44-55; returns the id *)
Definition add_factor (w : world) (l : loc) : option (world * nat) :=
  match nth_error (w_factors w) l with
  | None => None
  | Some f =>
      let g := w_graph w in
      let k := length (g_factors g) in
      Some (mkW (link_all (f_nodes f) l (w_nodes w))
                (upd (w_factors w) l (factor_set_id k))
                (mkGraph (g_nodes g) (g_active g) (g_factors g ++ [l]) (g_eigen g)
                         (g_stateDim g) (g_obsDim g + f_dim f)), k)
  end.
(** factor_graph.cpp:57-68 *)
Definition add_eigen_factor (w : world) (l : loc) : option (world * nat) :=
  match nth_error (w_factors w) l with
  | None => None
  | Some f =>
      let g := w_graph w in
      let k := length (g_eigen g) in
      Some (mkW (link_all (f_nodes f) l (w_nodes w))
                (upd (w_factors w) l (factor_set_id k))
                (mkGraph (g_nodes g) (g_active g) (g_factors g) (g_eigen g ++ [l])
                         (g_stateDim g) (g_obsDim g + f_dim f)), k)
  end.
(** factor_graph.cpp:71-88, assert(0) of line 84 off (Release) *)
Definition add_node (w : world) (l : loc) : option (world * nat) :=
  match nth_error (w_nodes w) l with
  | None => None
  | Some n =>
      let g := w_graph w in
      let k := length (g_nodes g) in
      let std := match n_mode n with STANDARD => true | _ => false end in
      Some (mkW (upd (w_nodes w) l (node_set_id k)) (w_factors w)
                (mkGraph (g_nodes g ++ [l])
                         (if std then g_active g ++ [l] else g_active g)
                         (g_factors g) (g_eigen g)
                         (if std then g_stateDim g + n_dim n else g_stateDim g)%nat
                         (g_obsDim g)), k)
  end.
(** factor_graph.cpp:90-102; an index out of range is UB (asserts off) *)
Definition get_node (w : world) (key : nat) : option loc := nth_error (g_nodes (w_graph w)) key.
Definition get_factor (w : world) (key : nat) : option loc := nth_error (g_factors (w_graph w)) key.
(** factor_graph.hpp:102-105 *)
Definition number_nodes (w : world) : nat := length (g_nodes (w_graph w)).
Definition number_factors (w : world) : nat := length (g_factors (w_graph w)).
Definition get_dimension_state (w : world) : nat := g_stateDim (w_graph w).
Definition get_dimension_obs (w : world) : nat := g_obsDim (w_graph w).

(** make_shared / new: allocation of a node, of a factor (its neighbours must exist) *)
Definition alloc_node (w : world) (n : node) : world := mkW (w_nodes w ++ [n]) (w_factors w) (w_graph w).
Definition alloc_factor (w : world) (f : factor) : option world :=
  if forallb (fun l => Nat.ltb l (length (w_nodes w))) (f_nodes f)
  then Some (mkW (w_nodes w) (w_factors w ++ [f]) (w_graph w)) else None.
(** node.cpp:43-57 through a node pointer *)
Definition rm_factor (w : world) (n f : loc) : option world :=
  match nth_error (w_nodes w) n with
  | None => None
  | Some x => option_map (fun y => mkW (upd (w_nodes w) n (fun _ => y)) (w_factors w) (w_graph w)) (node_rm_factor f x)
  end.
(** node.hpp:126 through a node pointer *)
Definition set_node_mode (w : world) (n : loc) (m : node_mode) : option world :=
  if Nat.ltb n (length (w_nodes w)) then Some (mkW (upd (w_nodes w) n (node_set_mode m)) (w_factors w) (w_graph w)) else None.
(** Node::set_state (Nodes.v) through a node pointer *)
Definition set_state (w : world) (n : loc) (v : nval) : option world :=
  match nth_error (w_nodes w) n with
  | None => None
  | Some x => option_map (fun d => mkW (upd (w_nodes w) n (node_set_data d)) (w_factors w) (w_graph w))
                (node_set_state (n_data x) v)
  end.
(** factor_graph.cpp:34-42 *)
Definition graph_destroy (w : world) : world :=
  mkW (fold_left (fun h n => upd h n node_clear) (g_nodes (w_graph w)) (w_nodes w)) (w_factors w) graph_new.

(** programs using the API *)
Inductive gop : Type :=
| ONewNode (m : node_mode) (v : nval)
| ONewFactor (dim alldim : nat) (ns : list loc) (res : list nval -> nat -> R)
    (jac : list nval -> nat -> nat -> R) (info : nat -> nat -> R) (t : robust_type)
| OAddNode (l : loc) | OAddFactor (l : loc) | OAddEigen (l : loc)
| ORmFactor (n f : loc)
| OSetMode (n : loc) (m : node_mode)
| OSetState (n : loc) (v : nval).
Definition gstep (w : world) (o : gop) : option world :=
  match o with
  | ONewNode m v => Some (alloc_node w (node_ctor m v))
  | ONewFactor d a ns r j i t => alloc_factor w (factor_ctor d a ns r j i t)
  | OAddNode l => option_map fst (add_node w l)
  | OAddFactor l => option_map fst (add_factor w l)
  | OAddEigen l => option_map fst (add_eigen_factor w l)
  | ORmFactor n f => rm_factor w n f
  | OSetMode n m => set_node_mode w n m
  | OSetState n v => set_state w n v
  end.
Fixpoint grun (w : world) (ops : list gop) : option world :=
  match ops with
  | [] => Some w
  | o :: r => match gstep w o with Some w' => grun w' r | None => None end
  end.
