(** Model of FGraphSolveDense: /repo/src/FGraph/factor_graph_solve_dense.cpp, as
    a [problem] of Optimizer.v over the world of Graph.v.

    J_ of a factor has f_dim rows and f_alldim columns. Eigen block accesses out
    of range, products of incompatible sizes and reading a std::vector out of
    range are undefined (asserts off), [None]. *)
Require Import Reals List Arith Bool.
From Verif Require Import Nodes Robust Graph Sums Solve Optimizer.
Import ListNotations.
Local Open Scope R_scope.

(** lines 82-89: indNodesMatrix *)
Fixpoint dense_offsets (w : world) (N : nat) (ns : list loc) : list nat :=
  match ns with [] => [] | l :: r => N :: dense_offsets w (N + n_dim (nd w l)) r end.
(** lines 109-118: the first neighbour with the id of the node, its first column *)
Fixpoint find_col (w : world) (id c : nat) (ns : list loc) : option nat :=
  match ns with
  | [] => None
  | m :: r => if Nat.eqb (n_id (nd w m)) id then Some c else find_col w id (c + n_dim (nd w m)) r
  end.
(** std::find and std::distance, line 134 *)
Fixpoint find_id (id k : nat) (ids : list nat) : option nat :=
  match ids with [] => None | x :: r => if Nat.eqb x id then Some k else find_id id (S k) r end.
Definition inside (off d i : nat) : bool := andb (Nat.leb off i) (Nat.ltb i (off + d)).
(** lines 130-131: gradient_.segment(off, N) += J_n_t * W * r *)
Definition add_grad (off N c : nat) (f : factor) (g : vec) : vec :=
  fun i => if inside off N i
           then g i + sumn (f_dim f) (fun l => sumn (f_dim f) (fun k => f_J f l (c + (i - off))%nat * f_info f l k * f_r f k)) else g i.
(** lines 137-138: hessian_.block(off, off2, N, M) += J_n_t * W * J_m *)
Definition add_hess (off N c off2 M c2 : nat) (f : factor) (H : mat) : mat :=
  fun i j => if andb (inside off N i) (inside off2 M j)
             then H i j + sumn (f_dim f) (fun l => sumn (f_dim f) (fun k => f_J f l (c + (i - off))%nat * f_info f l k * f_J f k (c2 + (j - off2))%nat))
             else H i j.
(** lines 120-139: the loop over the neighbours of a factor; [off], [N], [c]:
    rows of the node and its first column in J; n is the size of the gradient *)
Fixpoint dense_blocks (w : world) (ids offs : list nat) (n off N c : nat) (f : factor) (c2 : nat) (ms : list loc) (gH : vec * mat) : option (vec * mat) :=
  match ms with
  | [] => Some gH
  | m :: r =>
      let M := n_dim (nd w m) in
      match find_id (n_id (nd w m)) 0 ids with
      | None => None
      | Some ix =>
          let off2 := nth ix offs 0%nat in
          if andb (Nat.leb (c2 + M) (f_alldim f)) (andb (Nat.leb (off + N) n) (Nat.leb (off2 + M) n))
          then dense_blocks w ids offs n off N c f (c2 + M) r (add_grad off N c f (fst gH), add_hess off N c off2 M c2 f (snd gH))
          else None
      end
  end.
(** lines 100-140: one factor of the list of a node. Without a neighbour of the
    same id J_n_t stays empty and the products are undefined. *)
Definition dense_factor (w : world) (ids offs : list nat) (n off : nat) (l : loc) (gH : option (vec * mat)) (fl : loc) : option (vec * mat) :=
  match gH with
  | None => None
  | Some gH =>
      let f := fa w fl in
      match find_col w (n_id (nd w l)) 0 (f_nodes f) with
      | None => match f_nodes f with [] => Some gH | _ => None end
      | Some c =>
          if Nat.leb (c + n_dim (nd w l)) (f_alldim f)
          then dense_blocks w ids offs n off (n_dim (nd w l)) c f 0 (f_nodes f) gH else None
      end
  end.
(** lines 94-141: the loop over the nodes *)
Fixpoint dense_rows (w : world) (ids offs : list nat) (n off : nat) (ns : list loc) (gH : option (vec * mat)) : option (vec * mat) :=
  match ns with
  | [] => gH
  | l :: r => dense_rows w ids offs n (off + n_dim (nd w l)) r
                (fold_left (dense_factor w ids offs n off l) (n_factors (nd w l)) gH)
  end.
(** lines 58-144 *)
Definition dense_gh (w : world) : option (world * (nat * vec * mat)) :=
  let n := g_stateDim (w_graph w) in
  let w1 := eval_factors w in
  let ns := g_nodes (w_graph w1) in
  let ids := map (fun l => n_id (nd w1 l)) ns in
  match dense_rows w1 ids (dense_offsets w1 0 ns) n 0 ns (Some (fun _ => 0, fun _ _ => 0)) with
  | None => None
  | Some (g, H) => Some (w1, (n, g, H))
  end.
(** lines 146-158; dx_ has the size of the gradient, the dimension of the state *)
Fixpoint dense_update_from (dx : vec) (start : nat) (ns : list loc) (w : world) : option world :=
  match ns with
  | [] => Some w
  | l :: r =>
      let d := n_dim (nd w l) in
      if Nat.leb (start + d) (g_stateDim (w_graph w))
      then dense_update_from dx (start + d) r
             (on_node w l (fun n => node_set_data (node_update (n_data n) (fun k => dx (start + k)%nat)) n))
      else None
  end.
Definition dense_update (dx : vec) (w : world) : option world := dense_update_from dx 0 (g_nodes (w_graph w)) w.
(** lines 159-168 *)
Definition dense_bookkeep (w : world) : world :=
  fold_left (fun w l => on_node w l (fun n => node_set_data (node_bookkeep (n_data n)) n)) (g_nodes (w_graph w)) w.
Definition dense_restore (w : world) : world :=
  fold_left (fun w l => on_node w l (fun n => node_set_data (node_restore (n_data n)) n)) (g_nodes (w_graph w)) w.
(** lines 46-57: the same loop as FGraphSolve::chi2(true) *)
Definition dense_error (w : world) : option (world * option R) :=
  let (w', e) := chi2 true w in Some (w', Some e).

(** factor_graph_solve_dense.hpp:41-54 *)
Definition dense : problem world := mkProblem dense_error dense_gh dense_update dense_bookkeep dense_restore.
