(** Programs that mix graph construction and solving, in C++ ([sop]) and through
    the Python class FGraphPy ([pyop], /repo/mrobpy/FGraphPy.cpp:58-203). *)
Require Import Reals List Arith Bool.
From Verif Require Import Nodes Robust Graph Sums Solve.
Import ListNotations.

(** FGraphSolve inherits FGraph's operations (factor_graph_solve.hpp:58) *)
Inductive sop : Type :=
| SGraph (o : gop)
| SSolve (m : optim_method) (maxIters : nat) (lambda tol : R)
| SChi2 (evaluate : bool).
Definition sstep (lin : linear_solver) (s : solver) (o : sop) : option solver :=
  match o with
  | SGraph o => option_map (with_world s) (gstep (s_w s) o)
  | SSolve m k lambda tol => solve lin m k lambda tol s
  | SChi2 flag => Some (with_world s (fst (chi2 flag (s_w s))))
  end.
Fixpoint srun (lin : linear_solver) (s : solver) (ops : list sop) : option solver :=
  match ops with
  | [] => Some s
  | o :: r => match sstep lin s o with Some s' => srun lin s' r | None => None end
  end.

(** what a factor class contributes: dimensions, residual, Jacobian; [fc_init]
    is the neighbour whose state its constructor sets, and to what
    (factor2Poses2d.cpp:40-47, 113-126, factor2Poses3d.cpp:38-58,
    factor1Pose1Landmark2d.cpp:45-66, factor1Pose1Landmark3d.cpp:38-59) *)
Record fclass : Type := mkFC {
  fc_dim : nat; fc_alldim : nat;
  fc_res : list nval -> nat -> R; fc_jac : list nval -> nat -> nat -> R;
  fc_init : option (nat * (list nval -> nval)) }.
Inductive pyop : Type :=
| PyNode (m : node_mode) (v : nval)                         (* add_node_*: 74-79, 110-115, 135-140, 154-159, 174-179 *)
| PyFactor (c : fclass) (ids : list nat) (info : nat -> nat -> R)  (* add_factor_*: 80-100, 116-131, 141-149, 160-168, 180-200 *)
| PySolve (m : optim_method) (maxIters : nat) (lambda tol : R)
| PyChi2 (evaluate : bool).
Fixpoint get_nodes (w : world) (ids : list nat) : option (list loc) :=
  match ids with
  | [] => Some []
  | i :: r => match get_node w i, get_nodes w r with Some l, Some ls => Some (l :: ls) | _, _ => None end
  end.
(** new NodeX(x, mode); add_node(n) *)
Definition py_node (w : world) (m : node_mode) (v : nval) : option world :=
  let l := length (w_nodes w) in
  grun w [ONewNode m v; OAddNode l].
(** get_node(id)...; new FactorX(...); add_factor(f) *)
Definition py_factor (rob : robust_type) (w : world) (c : fclass) (ids : list nat) (info : nat -> nat -> R) : option world :=
  match get_nodes w ids with
  | None => None
  | Some ls =>
      let l := length (w_factors w) in
      let init := match fc_init c with
                  | None => Some []
                  | Some (p, g) =>
                      match nth_error ls p with
                      | None => None
                      | Some n => Some [OSetState n (g (map (fun l => nst (n_data (nd w l))) ls))]
                      end
                  end in
      match init with
      | None => None
      | Some i => grun w (i ++ [ONewFactor (fc_dim c) (fc_alldim c) ls (fc_res c) (fc_jac c) info rob; OAddFactor l])
      end
  end.
Definition pystep (lin : linear_solver) (rob : robust_type) (s : solver) (o : pyop) : option solver :=
  match o with
  | PyNode m v => option_map (with_world s) (py_node (s_w s) m v)
  | PyFactor c ids info => option_map (with_world s) (py_factor rob (s_w s) c ids info)
  | PySolve m k lambda tol => solve lin m k lambda tol s
  | PyChi2 flag => Some (with_world s (fst (chi2 flag (s_w s))))
  end.
Fixpoint pyrun (lin : linear_solver) (rob : robust_type) (s : solver) (ops : list pyop) : option solver :=
  match ops with
  | [] => Some s
  | o :: r => match pystep lin rob s o with Some s' => pyrun lin rob s' r | None => None end
  end.
