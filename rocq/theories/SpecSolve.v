(** Specifications for the sparse solver, independent of its index arithmetic. *)
Require Import Reals List Arith.
From Verif Require Import Nodes Robust Graph GraphProofs Sums Solve.
Import ListNotations.
Local Open Scope R_scope.

(** number of scalars before the j-th element of a list of objects *)
Definition before {A} (dim : A -> nat) (s : list A) (j : nat) : nat := lsumn (map dim (firstn j s)).
Definition ndim (w : world) (l : loc) : nat := n_dim (nd w l).
Definition fdim (w : world) (l : loc) : nat := f_dim (fa w l).
(** first column of the m-th active node, first row of the i-th factor *)
Definition col (w : world) (m : nat) : nat := before (ndim w) (g_active (w_graph w)) m.
Definition row (w : world) (i : nat) : nat := before (fdim w) (g_factors (w_graph w)) i.

(** graphs the solver is meant for: standard neighbours are in the graph, are
    pairwise different within a factor, ids identify active nodes, dimensions add up *)
Record wf (w : world) : Prop := {
  wf_active : forall l, In l (g_active (w_graph w)) -> (l < length (w_nodes w))%nat /\ n_mode (nd w l) <> ANCHOR;
  wf_ids : NoDup (map (fun l => n_id (nd w l)) (g_active (w_graph w)));
  wf_factors : forall l, In l (g_factors (w_graph w)) -> (l < length (w_factors w))%nat;
  wf_neigh : forall l n, In l (g_factors (w_graph w)) -> In n (f_nodes (fa w l)) ->
     n_mode (nd w n) <> ANCHOR -> In n (g_active (w_graph w));
  wf_distinct : forall l, In l (g_factors (w_graph w)) ->
     NoDup (filter (fun n => negb (is_anchor (nd w n))) (f_nodes (fa w l)));
  wf_state : g_stateDim (w_graph w) = lsumn (map (ndim w) (g_active (w_graph w)));
  wf_obs : g_obsDim (w_graph w) = lsumn (map (fdim w) (g_factors (w_graph w))) }.

(** residual and Jacobian of a factor at the current states *)
Definition res_at (w : world) (l : loc) : vec := f_res (fa w l) (states_of w (fa w l)).
Definition jac_at (w : world) (l : loc) : mat := f_jac (fa w l) (states_of w (fa w l)).
(** 1/2 r' W r at the current states, and its sum over the graph *)
Definition fchi2 (w : world) (l : loc) : R :=
  1 / 2 * quad (fdim w l) (f_info (fa w l)) (res_at w l) (res_at w l).
Definition chi2_of (w : world) : R := lsum (g_factors (w_graph w)) (fchi2 w).
(** robust weight at the current states *)
Definition weight_at (w : world) (l : loc) : R :=
  robust_eval (f_rob (fa w l)) (f_weight (fa w l)) (sqrt (fchi2 w l)).

(** J d for increments [d n k] of the k-th coordinate of node n *)
Fixpoint jac_dir (dim : loc -> nat) (J : mat) (l off : nat) (ns : list loc) (d : loc -> nat -> R) : R :=
  match ns with
  | [] => 0
  | n :: r => sumn (dim n) (fun k => J l (off + k)%nat * d n k) + jac_dir dim J l (off + dim n) r d
  end.
Definition jac_times (w : world) (l : loc) (d : loc -> nat -> R) : vec :=
  fun i => jac_dir (ndim w) (jac_at w l) i 0 (f_nodes (fa w l)) d.
(** the increments encoded by a vector of the solver: anchors get none *)
Fixpoint index_of (l : loc) (s : list loc) : nat :=
  match s with [] => 0 | x :: r => if Nat.eqb x l then 0 else S (index_of l r) end.
Definition increments (w : world) (x : vec) : loc -> nat -> R :=
  fun n k => if is_anchor (nd w n) then 0 else x (col w (index_of n (g_active (w_graph w))) + k)%nat.
(** the robustified linearised cost, sum of w_f |r_f + J_f d|^2 *)
Definition lin_cost (w : world) (d : loc -> nat -> R) : R :=
  lsum (g_factors (w_graph w)) (fun l => weight_at w l *
    quad (fdim w l) (f_info (fa w l)) (fun i => res_at w l i + jac_times w l d i) (fun i => res_at w l i + jac_times w l d i)).
Definition sym_on (d : nat) (W : mat) : Prop := forall i j, (i < d)%nat -> (j < d)%nat -> W i j = W j i.
Definition psd_on (d : nat) (W : mat) : Prop := forall x, 0 <= quad d W x x.
Definition sym_infos (w : world) : Prop := forall l, In l (g_factors (w_graph w)) -> sym_on (fdim w l) (f_info (fa w l)).
Definition psd_infos (w : world) : Prop := forall l, In l (g_factors (w_graph w)) -> psd_on (fdim w l) (f_info (fa w l)).

Definition weights_nonneg (w : world) : Prop := forall l, In l (g_factors (w_graph w)) -> 0 <= weight_at w l.
(** [iters lin es s s']: passes of the loop from s to s', with exits [es] *)
Inductive iters (lin : linear_solver) : list lm_exit -> solver -> solver -> Prop :=
| iters_nil s : iters lin [] s s
| iters_cons s s1 s2 e es : lm_iter lin s = Some (s1, e) -> iters lin es s1 s2 -> iters lin (e :: es) s s2.
(** a residual that does not see multiples of 2 pi added to 2D headings *)
Definition wrap_blind (f : factor) : Prop := forall vs vs', Forall2 (fun v v' => v' = v \/ v' = val_set v) vs vs' -> forall i, f_res f vs' i = f_res f vs i.
Definition wrap_ok (w : world) : Prop :=
  (forall l, In l (g_active (w_graph w)) -> val_set (nst (n_data (nd w l))) = nst (n_data (nd w l))) \/
  (forall l, In l (g_factors (w_graph w)) -> wrap_blind (fa w l)).
Definition valid_factors (w : world) : Prop := forall l, In l (g_factors (w_graph w)) -> (l < length (w_factors w))%nat.
